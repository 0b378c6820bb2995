(** C54: an outcome depends only on the input up to and including the token
    where it was decided. *)
From Verif Require Import LL PropsLL ExpAll PropsDiag PropsFirst FirstSpec PropsTotal Locations DiagProofs PropsRecovery Examples PropsPeg.

Section Online.
Context {T : Type} {V : nat -> Type}.
Variable E : env T V.
Notation gram := (gram T V).
Hypothesis HE : wf_env E.

Definition online (s : list T) (at_ : nat -> loc) {A} (g : gram A) (m : Z) (i : nat) (o : dres A) : Prop :=
  match o with
  | DSucc v j X => i <= j <= List.length s /\
      forall s' at', same_to s s' j -> diag E s' at' A g m i (DSucc v j X)
  | DFail b l X => exists p, l = at_ p /\ i <= p <= List.length s /\ (b = false -> p = i) /\
      forall s' at', same_to s s' p -> diag E s' at' A g m i (DFail b (at' p) X)
  | DExn _ => True
  end.
Lemma online_wrap s at_ A B (p : gram A) (g : gram B) m i o (o' : dres B) :
  match o, o' with
  | DSucc v j X, DSucc v' j' X' => j' = j /\
      forall s' at', diag E s' at' A p m i (DSucc v j X) -> diag E s' at' B g m i (DSucc v' j X')
  | DFail b l X, DFail b' l' X' => b' = b /\ l' = l /\
      forall s' at' q, diag E s' at' A p m i (DFail b (at' q) X) -> diag E s' at' B g m i (DFail b (at' q) X')
  | _, DExn _ => True
  | _, _ => False
  end ->
  online s at_ p m i o -> online s at_ g m i o'.
Proof.
  destruct o as [v j X|b l X|e], o' as [v' j' X'|b' l' X'|e']; try contradiction; try (intros; exact I).
  - intros [-> H] [K1 K2]. split; auto.
  - intros (-> & -> & H) (p0 & K1 & K2 & K3 & K4). exists p0. auto 10.
Qed.
Lemma online_after s at_ A B C (p : gram A) (q : gram B) (g : gram C) (h : B -> C) m i v j X o :
  (forall s' at' o, diag E s' at' A p m i (DSucc v j X) -> diag E s' at' B q m j o ->
     diag E s' at' C g m i (on_dvalue h (d_after i j X o))) ->
  online s at_ p m i (DSucc v j X) -> online s at_ q m j o ->
  online s at_ g m i (on_dvalue h (d_after i j X o)).
Proof.
  intros H2 (K1 & K3) HO. destruct o as [v' k Y|b l Y|e]; [| |exact I].
  - destruct HO as (O1 & O3). split; [lia|]. intros s' at' Hs. apply (H2 s' at' (DSucc v' k Y)); auto.
    apply K3. eapply same_le; eauto. lia.
  - destruct HO as (r & -> & O2 & O3 & O4).
    assert (HL : forall s' at', same_to s s' r ->
      diag E s' at' C g m i (on_dvalue h (d_after i j X (DFail b (at' r) Y)))).
    { intros s' at' Hs. apply H2; auto. apply K3. eapply same_le; eauto. lia. }
    destruct b; simpl in *; exists r; (split; [auto|]); (split; [lia|]); (split; [|auto]).
    + discriminate.
    + intros Hij. apply Nat.ltb_ge in Hij. specialize (O3 eq_refl). lia.
Qed.

Ltac atp q := exists q; split; [reflexivity|]; split; [lia|]; split; [reflexivity|].
Lemma diag_online s at_ A (g : gram A) m i o :
  diag E s at_ A g m i o -> wf g -> i <= List.length s -> local E g -> online s at_ g m i o.
Proof.
  intros H. induction H; intros Hw Hi Hc; try exact I.
  all: try (destruct Hw as [Hn Hw]).
  - split; [lia|]. intros; constructor.
  - split; [lia|]. intros; constructor; auto.
  - atp i. intros; constructor.
  - split; [lia|]. intros s' at' Hs.
    assert (Hx : nth_error s (List.length s) = None) by (apply nth_error_None; lia).
    destruct (same_none s s' _ Hi Hs Hx) as [_ Hl]. rewrite Hl. constructor.
  - atp i. intros s' at' Hs. constructor.
    intros ->. assert (Hx : nth_error s (List.length s') = None).
    { rewrite <- (Hs _ (le_n _)). apply nth_error_None. lia. }
    apply nth_error_None in Hx. lia.
  - assert (i < List.length s) by (apply nth_error_Some; congruence). split; [lia|].
    intros s' at' Hs. apply dg_sat; auto. eapply same_some; eauto. eapply same_le; eauto. lia.
  - atp i. intros s' at' Hs. eapply dg_sat_no; eauto. eapply same_some; eauto.
  - atp i. intros s' at' Hs. apply dg_sat_end. rewrite (Hs i); auto.
  - assert (i < List.length s) by (apply nth_error_Some; congruence). split; [lia|].
    intros s' at' Hs. apply dg_sym; auto. eapply same_some; eauto. eapply same_le; eauto. lia.
  - atp i. intros s' at' Hs. apply dg_sym_no. rewrite (Hs i); auto.
  - pose proof (starts_within _ _ _ _ H Hi). split; [lia|]. intros s' at' Hs. destruct Hc as [L _].
    apply ev_here in L. simpl in L. apply dg_lit. destruct x as [|a [|]]; try discriminate. rewrite starts_one in *.
    rewrite (Hs i); auto. simpl in *. lia.
  - atp i. intros s' at' Hs. destruct Hc as [L _]. apply ev_here in L. simpl in L.
    apply dg_lit_no. destruct x as [|a [|]]; try discriminate. rewrite starts_one in *. rewrite (Hs i); auto.
  - destruct Hc as [L _]. apply ev_here in L. destruct (Hn s i e (Some v) Hi H). split; [lia|].
    intros s' at' Hs. apply dg_re. apply (proj1 (L s s' i Hi)); auto.
  - destruct Hc as [L _]. apply ev_here in L. atp i. intros s' at' Hs. apply dg_re_no. intros (e & v & Q). revert Q.
    apply (proj2 (L s s' i Hi)); auto.
    + intros e' v' Q. apply H. exists e', v'. exact Q.
    + intros k Hk. apply Hs. lia.
  - (* fmap *) assert (L : local E p) by (revert Hc; apply local_sub; intros P; apply ev_fmap).
    eapply online_wrap; [|exact (IHdiag Hw Hi L)]. split; [auto|]. intros; eapply dg_fmap; eauto.
  - assert (L : local E p) by (revert Hc; apply local_sub; intros P; apply ev_fmap).
    eapply online_wrap; [|exact (IHdiag Hw Hi L)]. split; [auto|]. split; [auto|]. intros; eapply dg_fmap_fail; eauto.
  - (* alt *) destruct Hw as [Hw1 Hw2].
    assert (L : local E p) by (revert Hc; apply local_sub; intros P; apply ev_alt_l).
    eapply online_wrap; [|exact (IHdiag Hw1 Hi L)]. split; [auto|]. intros; constructor; auto.
  - destruct Hw as [Hw1 Hw2].
    assert (L : local E p) by (revert Hc; apply local_sub; intros P; apply ev_alt_l).
    eapply online_wrap; [|exact (IHdiag Hw1 Hi L)]. split; [auto|]. split; [auto|]. intros; apply dg_alt_fail; auto.
  - destruct Hw as [Hw1 Hw2].
    assert (Lp : local E p) by (revert Hc; apply local_sub; intros P; apply ev_alt_l).
    assert (Lq : local E q) by (revert Hc; apply local_sub; intros P; apply ev_alt_r).
    destruct (IHdiag1 Hw1 Hi Lp) as (r & -> & K2 & K3 & K4). specialize (K3 eq_refl). subst r.
    pose proof (IHdiag2 Hw2 Hi Lq) as KO. destruct o as [v k Y|b l' Y|e]; [| |exact I].
    + destruct KO as [O1 O2]. split; [auto|]. intros s' at' Hs.
      apply (dg_alt_r E s' at' A p q m i (at' i) X (DSucc v k Y)); auto. apply K4. eapply same_le; eauto. lia.
    + destruct KO as (r & -> & O2 & O3 & O4). destruct b; simpl.
      * exists r. split; [auto|]. split; [lia|]. split; [discriminate|]. intros s' at' Hs.
        apply (dg_alt_r E s' at' A p q m i (at' i) X (DFail true (at' r) Y)); auto. apply K4. eapply same_le; eauto. lia.
      * exists i. split; [auto|]. split; [lia|]. split; [auto|]. specialize (O3 eq_refl). subst r. intros s' at' Hs.
        apply (dg_alt_r E s' at' A p q m i (at' i) X (DFail false (at' i) Y)); auto.
  - (* bind *) destruct Hw as [Hw1 Hw2].
    assert (Lp : local E p) by (revert Hc; apply local_sub; intros P; apply ev_bind_l).
    assert (Lq : local E (f v)) by (revert Hc; apply local_sub; intros P; apply ev_bind_r).
    pose proof (IHdiag1 Hw1 Hi Lp) as K1.
    pose proof (IHdiag2 (Hw2 v) (proj2 (proj1 K1)) Lq) as K2.
    replace (d_after i j X o) with (on_dvalue (fun x => x) (d_after i j X o)) by (destruct o as [| []|]; reflexivity).
    revert K1 K2. apply online_after. intros s' at' o' D1 D2.
    replace (on_dvalue (fun x => x) (d_after i j X o')) with (d_after i j X o') by (destruct o' as [| []|]; reflexivity).
    eapply dg_bind; eauto.
  - destruct Hw as [Hw1 Hw2].
    assert (L : local E p) by (revert Hc; apply local_sub; intros P; apply ev_bind_l).
    eapply online_wrap; [|exact (IHdiag Hw1 Hi L)]. split; [auto|]. split; [auto|]. intros; apply dg_bind_fail; auto.
  - (* seq *) destruct Hw as [Hw1 Hw2].
    assert (Lp : local E p) by (revert Hc; apply local_sub; intros P; apply ev_seq_l).
    assert (Lq : local E q) by (revert Hc; apply local_sub; intros P; apply ev_seq_r).
    pose proof (IHdiag1 Hw1 Hi Lp) as K1.
    pose proof (IHdiag2 Hw2 (proj2 (proj1 K1)) Lq) as K2.
    revert K1 K2. apply online_after. intros s' at' o' D1 D2. eapply dg_seq; eauto.
  - destruct Hw as [Hw1 Hw2].
    assert (L : local E p) by (revert Hc; apply local_sub; intros P; apply ev_seq_l).
    eapply online_wrap; [|exact (IHdiag Hw1 Hi L)]. split; [auto|]. split; [auto|]. intros; apply dg_seq_fail; auto.
  - (* maybe *) assert (L : local E p) by (revert Hc; apply local_sub; intros P; apply ev_maybe).
    eapply online_wrap; [|exact (IHdiag Hw Hi L)]. split; [auto|]. intros; constructor; auto.
  - assert (L : local E p) by (revert Hc; apply local_sub; intros P; apply ev_maybe).
    destruct (IHdiag Hw Hi L) as (r & -> & K2 & K3 & K4). specialize (K3 eq_refl). subst r.
    split; [lia|]. intros s' at' Hs. eapply dg_maybe_none; eauto.
  - assert (L : local E p) by (revert Hc; apply local_sub; intros P; apply ev_maybe).
    eapply online_wrap; [|exact (IHdiag Hw Hi L)]. split; [auto|]. split; [auto|]. intros; apply dg_maybe_fail; auto.
  - (* many *) assert (L : local E p) by (revert Hc; apply local_sub; intros P; apply ev_many).
    destruct (IHdiag1 Hw Hi L) as [K1 K2]. destruct (IHdiag2 (conj Hn Hw) (proj2 K1) Hc) as [J1 J2].
    split; [lia|]. intros s' at' Hs. eapply dg_many_more; eauto. apply K2. eapply same_le; eauto. lia.
  - assert (L : local E p) by (revert Hc; apply local_sub; intros P; apply ev_many).
    destruct (IHdiag1 Hw Hi L) as [K1 K2].
    destruct (IHdiag2 (conj Hn Hw) (proj2 K1) Hc) as (r & -> & J1 & J2 & J3).
    pose proof (many_commits _ _ _ _ _ _ _ _ H1) as Hb. simpl in Hb. subst b.
    exists r. split; [auto|]. split; [lia|]. split; [discriminate|].
    intros s' at' Hs. eapply dg_many_more_fail; eauto. apply K2. eapply same_le; eauto. lia.
  - assert (L : local E p) by (revert Hc; apply local_sub; intros P; apply ev_many).
    destruct (IHdiag Hw Hi L) as (r & -> & K2 & K3 & K4). specialize (K3 eq_refl). subst r.
    split; [lia|]. intros s' at' Hs. eapply dg_many_stop; eauto.
  - assert (L : local E p) by (revert Hc; apply local_sub; intros P; apply ev_many).
    eapply online_wrap; [|exact (IHdiag Hw Hi L)]. split; [auto|]. split; [auto|]. intros; apply dg_many_fail; auto.
  - destruct Hc as [L _]. apply ev_here in L. destruct L.
  - destruct Hc as [L _]. apply ev_here in L. destruct L.
  - (* label *) assert (L : local E p) by (revert Hc; apply local_sub; intros P; apply ev_label).
    eapply online_wrap; [|exact (IHdiag Hw Hi L)]. destruct o as [v j X|b l X|e]; [| |exact I].
    + split; [auto|]. intros s' at' D. exact (dg_label E s' at' A p x m i _ D).
    + destruct b; (split; [reflexivity|]); (split; [reflexivity|]);
        intros s' at' q D; exact (dg_label E s' at' A p x m i _ D).
  - assert (L : local E p) by (revert Hc; apply local_sub; intros P; apply ev_recover).
    eapply online_wrap; [|exact (IHdiag Hw Hi L)]. destruct o as [v j X|b l X|e]; [| |exact I]; repeat (split; [reflexivity|]); intros; constructor; auto.
  - assert (L : local E p) by (revert Hc; apply local_sub; intros P; apply ev_with).
    eapply online_wrap; [|exact (IHdiag Hw Hi L)]. destruct o as [v j X|b l0 X|e]; [| |exact I]; repeat (split; [reflexivity|]); intros; constructor; auto.
  - assert (L : local E p) by (revert Hc; apply local_sub; intros P; apply ev_withfn).
    eapply online_wrap; [|exact (IHdiag Hw Hi L)]. destruct o as [v j X|b l X|e]; [| |exact I]; repeat (split; [reflexivity|]); intros; constructor; auto.
  - destruct Hc as [_ L]. apply ev_here in L. destruct L. exact I.
  - destruct Hc as [_ L]. apply ev_here in L. destruct L. exact I.
  - destruct Hc as [_ L]. apply ev_here in L. destruct L. exact I.
  - destruct Hc as [_ L]. apply ev_here in L. destruct L. exact I.
  - destruct Hc as [_ L]. apply ev_here in L. destruct L. exact I.
  - (* delay *) assert (L : local E (E d)) by (revert Hc; apply local_sub; intros P; apply ev_delay).
    eapply online_wrap; [|exact (IHdiag (HE d) Hi L)]. destruct o as [v j X|b l X|e]; [| |exact I]; repeat (split; [reflexivity|]); intros; constructor; auto.
Qed.
End Online.

(** [s'] begins with the same [p] items, and then has the same item or the same end. *)
Lemma agree_to T (s s' : list T) p : firstn (p + 1) s' = firstn (p + 1) s -> same_to s s' p.
Proof.
  intros H k Hk. rewrite <- (nth_firstn s' (p + 1) k), <- (nth_firstn s (p + 1) k) by lia. congruence.
Qed.

(** ** C54  The outcome of a parse does not depend on the input behind the place
    where it is decided: an error at position [p] is found, with the same expected
    values and at the same position, in every input that agrees up to and including
    the token at [p]; so is a value for which [j] tokens were examined. *)
Theorem C54_error_is_local :
  forall T V (E : env T V) n A (g : gram T V A) s mi get fmt locof r b errs,
  wf_env E -> wf g -> cohere get s locof -> lay_ok E g s locof ->
  everywhere E next_token_node g -> everywhere E (fun B q => ~ is_layout B q) g ->
  parse E n g s false mi get fmt = Ret r -> unwrap r b = Raises errs ->
  exists p e, errs = [e] /\ ei_loc e = locof p /\ p <= List.length s /\
    forall s' mi' get' fmt' locof' b', firstn (p + 1) s' = firstn (p + 1) s ->
      cohere get' s' locof' -> lay_ok E g s' locof' ->
      exists n' r' e', parse E n' g s' false mi' get' fmt' = Ret r' /\ unwrap r' b' = Raises [e'] /\
        ei_loc e' = locof' p /\ ei_expected e' = ei_expected e.
Proof.
  intros T V E n A g s mi get fmt locof r b errs HE Hg Hco Hl H1 Hnl H Hu.
  destruct (C43_plain_diagnostics T V E A g s mi get fmt locof b HE Hg Hco Hl) as (_ & D & _).
  destruct (proj1 (D errs) (ex_intro _ n (ex_intro _ r (conj H Hu)))) as (c & l & X & HD & ->).
  destruct (diag_online E HE s locof A g 0 0 _ HD Hg ltac:(lia) (conj H1 Hnl)) as (p & -> & Hp & _ & K).
  exists p. eexists. split; [reflexivity|]. split; [reflexivity|]. split; [lia|].
  intros s' mi' get' fmt' locof' b' Hs Hco' Hl'. apply agree_to in Hs.
  destruct (C43_plain_diagnostics T V E A g s' mi' get' fmt' locof' b' HE Hg Hco' Hl') as (_ & D' & _).
  destruct (proj2 (D' _) (ex_intro _ c (ex_intro _ (locof' p) (ex_intro _ X (conj (K s' locof' Hs) eq_refl)))))
    as (n' & r' & Q1 & Q2).
  exists n', r'. eexists. split; [exact Q1|]. split; [exact Q2|]. auto.
Qed.
Print Assumptions C54_error_is_local.

Theorem C54_value_is_local :
  forall T V (E : env T V) n A (g : gram T V A) s mi get fmt locof r b v,
  wf_env E -> wf g -> cohere get s locof -> lay_ok E g s locof ->
  everywhere E next_token_node g -> everywhere E (fun B q => ~ is_layout B q) g ->
  parse E n g s false mi get fmt = Ret r -> unwrap r b = Returns v ->
  exists j, j <= List.length s /\ sentence E g (firstn j s) v /\
    forall s' rec mi' get' fmt' locof' b', firstn (j + 1) s' = firstn (j + 1) s ->
      cohere get' s' locof' -> lay_ok E g s' locof' ->
      exists n' r', parse E n' g s' rec mi' get' fmt' = Ret r' /\ unwrap r' b' = Returns v.
Proof.
  intros T V E n A g s mi get fmt locof r b v HE Hg Hco Hl H1 Hnl H Hu.
  destruct (C43_plain_diagnostics T V E A g s mi get fmt locof b HE Hg Hco Hl) as (D & _ & _).
  destruct (proj1 (D v) (ex_intro _ n (ex_intro _ r (conj H Hu)))) as (j & X & HD).
  destruct (diag_online E HE s locof A g 0 0 _ HD Hg ltac:(lia) (conj H1 Hnl)) as (Hj & K).
  exists j. split; [lia|]. split.
  - destruct (lay_gok _ _ _ _ _ HE Hg Hl) as [G1 G2].
    destruct (diag_complete E s get locof _ Hco (fun x => x) G2 A g 0 0 _ HD G1 ltac:(lia) (init_ctx get)) as [k Hk];
      [apply pos_init|reflexivity|].
    apply dabs_succ in Hk as (o & Hk & <- & <- & _).
    apply (C04_success_anywhere _ _ _ _ _ _ _ _ _ _ HE Hg) in Hk as (_ & _ & Hk); [|lia].
    unfold slice in Hk. rewrite Nat.sub_0_r in Hk. exact Hk.
  - intros s' rec mi' get' fmt' locof' b' Hs Hco' Hl'. apply agree_to in Hs.
    destruct (C43_plain_diagnostics T V E A g s' mi' get' fmt' locof' false HE Hg Hco' Hl') as (D' & _ & _).
    destruct (proj2 (D' v) (ex_intro _ j (ex_intro _ X (K s' locof' Hs)))) as (n' & r' & Q1 & Q2).
    assert (Hr : exists r', parse E n' g s' rec mi' get' fmt' = Ret r' /\ unwrap r' false = Returns v).
    { destruct rec; [|eauto]. apply (C01_recovery_transparent T V E n' A g s' mi' mi' get' fmt' v). eauto. }
    destruct Hr as (r1 & R1 & R2). exists n', r1. split; [exact R1|].
    destruct b'; [|exact R2]. unfold unwrap in *. destruct (pr_result r1) as [o|e|rc]; auto.
    destruct (rc_reps rc); discriminate.
Qed.
Print Assumptions C54_value_is_local.

(** the first error reported with recovery is as local *)
Theorem C54_first_error_is_local :
  forall T V (E : env T V) n A (g : gram T V A) s mi get fmt locof r errs,
  wf_env E -> wf g -> cohere get s locof -> lay_ok E g s locof ->
  everywhere E next_token_node g -> everywhere E (fun B q => ~ is_layout B q) g -> single_withs E g ->
  parse E n g s true mi get fmt = Ret r -> unwrap r false = Raises errs ->
  exists p e tl, errs = e :: tl /\ ei_loc e = locof p /\ p <= List.length s /\
    forall s' mi' get' fmt' locof' n' r', firstn (p + 1) s' = firstn (p + 1) s ->
      cohere get' s' locof' -> lay_ok E g s' locof' ->
      parse E n' g s' true mi' get' fmt' = Ret r' ->
      exists e' tl', unwrap r' false = Raises (e' :: tl') /\ ei_loc e' = locof' p /\
        (ei_op e <> None -> ei_op e' <> None -> ei_expected e' = ei_expected e).
Proof.
  intros T V E n A g s mi get fmt locof r errs HE Hg Hco Hl H1 Hnl Hsw H Hu.
  assert (Ha : attempt_free E g).
  { intros B q Ho Hq. specialize (H1 B q Ho). destruct q; simpl in *; tauto. }
  destruct (plain_fails _ _ _ _ _ _ _ mi _ _ _ _ _ H Hu) as (r0 & e0 & H0 & Hu0).
  destruct (C54_error_is_local _ _ _ _ _ _ _ _ _ _ _ _ _ _ HE Hg Hco Hl H1 Hnl H0 Hu0) as (p & e & -> & K1 & K2 & K3).
  destruct (C12_first_error _ _ _ _ _ _ _ _ _ _ _ _ _ _ _ _ HE Hg Hco Hl Ha Hsw H0 Hu0 H)
    as (x0 & x1 & tl & Hx & Hx1 & L1 & _ & L3).
  injection Hx as <-. rewrite Hu in Hx1. injection Hx1 as ->.
  exists p, x1, tl. split; [auto|]. split; [congruence|]. split; [auto|].
  intros s' mi' get' fmt' locof' n' r' Hs Hco' Hl' H'.
  destruct (K3 s' mi' get' fmt' locof' false Hs Hco' Hl') as (n1 & r1 & e1 & P1 & P2 & P3 & P4).
  destruct (C12_first_error _ _ _ _ _ _ _ _ _ _ _ _ _ _ _ _ HE Hg Hco' Hl' Ha Hsw P1 P2 H')
    as (y0 & y1 & tl' & Hy & Hy1 & M1 & _ & M3).
  injection Hy as <-. exists y1, tl'. split; [auto|]. split; [congruence|].
  intros O1 O2. rewrite (L3 O1), (M3 O2). exact P4.
Qed.
Print Assumptions C54_first_error_is_local.

(** Parsing text: the very same error, line and column included. *)
Corollary C54_scannerless :
  forall V (E : env char V) n A (g : gram char V A) s r errs,
  wf_env E -> wf g ->
  everywhere E next_token_node g -> everywhere E (fun B q => ~ is_layout B q) g ->
  scannerless_parse E n g s false = Ret r -> unwrap r false = Raises errs ->
  exists p, p <= List.length s /\ (exists e, errs = [e] /\ loc_pos (ei_loc e) = Z.of_nat p) /\
    forall s', firstn (p + 1) s' = firstn (p + 1) s ->
      exists n' r', scannerless_parse E n' g s' false = Ret r' /\ unwrap r' false = Raises errs.
Proof.
  intros V E n A g s r errs HE Hg H1 Hnl H Hu.
  destruct (C43_plain_diagnostics char V E A g s 5 scannerless_get_loc linecol_fmt (true_loc s) false HE Hg
    (scannerless_cohere s) (or_introl (scannerless_exact s))) as (_ & D & _).
  destruct (proj1 (D errs) (ex_intro _ n (ex_intro _ r (conj H Hu)))) as (c & l & X & HD & ->).
  destruct (diag_online E HE s (true_loc s) A g 0 0 _ HD Hg ltac:(lia) (conj H1 Hnl)) as (p & -> & Hp & _ & K).
  exists p. split; [lia|]. split.
  { eexists. split; [reflexivity|]. simpl. reflexivity. }
  intros s' Hs.
  destruct (C43_plain_diagnostics char V E A g s' 5 scannerless_get_loc linecol_fmt (true_loc s') false HE Hg
    (scannerless_cohere s') (or_introl (scannerless_exact s'))) as (_ & D' & _).
  apply (proj2 (D' _)). exists c, (true_loc s' p), X. split; [apply K, agree_to, Hs|].
  replace (true_loc s' p) with (true_loc s p); [reflexivity|].
  assert (F : firstn p s' = firstn p s).
  { apply (f_equal (firstn p)) in Hs. rewrite !firstn_firstn in Hs. replace (Init.Nat.min p (p + 1)) with p in Hs by lia. exact Hs. }
  unfold true_loc, true_line, true_col. rewrite F. reflexivity.
Qed.
Print Assumptions C54_scannerless.

(** The expressions of the example: *)
Lemma ex_top_one_token : everywhere ex_E next_token_node ex_top.
Proof. apply ev_eof; simpl; auto. apply ex_one_token. Qed.
Lemma ex_top_layout_free : everywhere ex_E (fun B q => ~ is_layout B q) ex_top.
Proof. apply ev_eof; simpl; auto. apply ex_layout_free. Qed.
(** "1+)2" has an error at 2, and so has whatever begins with "1+)" *)
Theorem C54_case : exists errs, exists e, errs = [e] /\ loc_pos (ei_loc e) = 2%Z /\ forall t,
  exists n r, scannerless_parse ex_E n ex_top (ex_str "1+)" ++ t) false = Ret r /\ unwrap r false = Raises errs.
Proof.
  assert (H : exists r e, ex_parse "1+)2" false 5 = Ret r /\ unwrap r false = Raises [e] /\ loc_pos (ei_loc e) = 2%Z).
  { do 2 eexists. split; [vm_compute; reflexivity|]. split; [vm_compute; reflexivity|]. vm_compute. reflexivity. }
  destruct H as (r & e & H & Hu & Hl).
  destruct (C54_scannerless ex_V ex_E 150 Z ex_top (ex_str "1+)2") _ _ ex_wf_E (wf_eof Z (GDelay 0) (conj I I)) ex_top_one_token ex_top_layout_free H Hu)
    as (p & _ & (e' & He & Hp) & K). injection He as <-.
  exists [e], e. split; [auto|]. split; [auto|]. intros t. apply K.
  assert (p = 2) as -> by lia. reflexivity.
Qed.
Print Assumptions C54_case.

(** The conditions are needed: a literal of two characters, and [attempt], look further. *)
Definition online_lit : ex_gram (list char) := GLiteral N.eqb (ex_str "ab") "'ab'".
Theorem C54_literal_differs : exists r e r',
  scannerless_parse lay_E 9 online_lit (ex_str "ac") false = Ret r /\ unwrap r false = Raises [e] /\
  loc_pos (ei_loc e) = 0%Z /\
  scannerless_parse lay_E 9 online_lit (ex_str "ab") false = Ret r' /\ unwrap r' false = Returns (ex_str "ab").
Proof. do 3 eexists. repeat (split; [vm_compute; reflexivity|]). vm_compute. reflexivity. Qed.
Definition online_att : ex_gram char := GAlt (GAttempt (seqr (ex_sym "a") (seqr (ex_sym "b") (ex_sym "c")))) (seqr (ex_sym "a") (ex_sym "d")).
Theorem C54_attempt_differs : exists r e r',
  scannerless_parse lay_E 9 online_att (ex_str "abd") false = Ret r /\ unwrap r false = Raises [e] /\
  loc_pos (ei_loc e) = 1%Z /\
  scannerless_parse lay_E 9 online_att (ex_str "abc") false = Ret r' /\ unwrap r' false = Returns (ex_ch "c").
Proof. do 3 eexists. repeat (split; [vm_compute; reflexivity|]). vm_compute. reflexivity. Qed.
