(** Expected values: soundness and completeness (C52, C53). *)
From Verif Require Export ExpSpec LL.

Section Sound.
Context {T : Type} {V : nat -> Type}.
Variable E : env T V.
Notation gram := (gram T V).
Hypothesis HE : wf_env E.
Notation compl := (everywhere E (completable_node E)).

Lemma rightly_sub A B (p : gram A) (g : gram B) w0 w l :
  (forall C (q : gram C), occurs E q A p -> occurs E q B g) ->
  (forall u v, sentence E p u v -> exists w' v', sentence E g (w0 ++ u ++ w') v') ->
  rightly E p w l -> rightly E g (w0 ++ w) l.
Proof.
  intros Ho Hs (C & q & H1 & H2 & H3). exists C, q. split; [auto|]. split; [auto|].
  intros u v Hu. destruct (H3 u v Hu) as (w1 & v1 & H4). destruct (Hs _ _ H4) as (w' & v' & H5).
  exists (w1 ++ w'), v'. rewrite <- !app_assoc in H5. rewrite <- !app_assoc. exact H5.
Qed.
Lemma rightly_in A B (p : gram A) (g : gram B) w l :
  (forall C (q : gram C), occurs E q A p -> occurs E q B g) ->
  (forall u v, sentence E p u v -> exists w' v', sentence E g (u ++ w') v') ->
  rightly E p w l -> rightly E g w l.
Proof. intros H1 H2. apply (rightly_sub A B p g [] w l); auto. Qed.
Lemma rightly_here A (g : gram A) l : called A g l -> rightly E g [] l.
Proof.
  intros H. exists A, g. split; [constructor|]. split; [auto|]. intros u v Hu. exists [], v. rewrite app_nil_r. auto.
Qed.

Definition apt (s : list T) (at_ : nat -> loc) {A} (g : gram A) (i : nat) (o : dres A) : Prop :=
  match o with
  | DSucc v j X => forall l, In l X -> rightly E g (slice s i j) l
  | DFail b l X => exists p, l = at_ p /\ i <= p <= List.length s /\ (b = false -> p = i) /\
      forall l, In l X -> rightly E g (slice s i p) l
  | DExn _ => True
  end.
Lemma apt_wrap s at_ A B (p : gram A) (g : gram B) i o (o' : dres B) :
  (forall C (q : gram C), occurs E q A p -> occurs E q B g) ->
  (forall u v, sentence E p u v -> exists w' v', sentence E g (u ++ w') v') ->
  match o, o' with
  | DSucc _ j X, DSucc _ j' X' => j' = j /\ X' = X
  | DFail b l X, DFail b' l' X' => b' = b /\ l' = l /\ X' = X
  | _, DExn _ => True
  | _, _ => False
  end ->
  apt s at_ p i o -> apt s at_ g i o'.
Proof.
  intros H1 H2 Ho K. destruct o as [v j X|b l X|e], o' as [v' j' X'|b' l' X'|e']; try contradiction; try exact I.
  - destruct Ho as [-> ->]. intros l Hl. eapply rightly_in; eauto.
  - destruct Ho as (-> & -> & ->). destruct K as (q & K1 & K2 & K3 & K4). exists q. repeat split; auto; try lia.
    intros l' Hl. eapply rightly_in; eauto.
Qed.
(** the rest after a first part *)
Lemma apt_after s at_ A B C (p : gram A) (q : gram B) (g : gram C) (h : B -> C) i v j X o :
  i <= j <= List.length s -> sentence E p (slice s i j) v ->
  (forall D (r : gram D), occurs E r A p -> occurs E r C g) ->
  (forall D (r : gram D), occurs E r B q -> occurs E r C g) ->
  (forall u v', sentence E p u v' -> exists w' v', sentence E g (u ++ w') v') ->
  (forall w w' v', sentence E p w v -> sentence E q w' v' -> exists v'', sentence E g (w ++ w') v'') ->
  (forall v' k Y, o = DSucc v' k Y -> j <= k <= List.length s) ->
  apt s at_ p i (DSucc v j X) -> apt s at_ q j o -> apt s at_ g i (on_dvalue h (d_after i j X o)).
Proof.
  intros Hij Hv Op Oq Hp Hq Hk KX KO.
  assert (Q : forall k l, j <= k <= List.length s -> rightly E q (slice s j k) l -> rightly E g (slice s i k) l).
  { intros k l Hjk R. rewrite <- (slice_app s i j k) by lia. revert R. apply rightly_sub; auto.
    intros u v' Hu. destruct (Hq _ _ _ Hv Hu) as [v'' H]. exists [], v''. rewrite app_nil_r. exact H. }
  assert (P : forall l, In l X -> rightly E g (slice s i j) l).
  { intros l Hl. eapply rightly_in; [exact Op|exact Hp|exact (KX l Hl)]. }
  destruct o as [v' k Y|b l Y|e]; simpl in *; auto.
  - specialize (Hk _ _ _ eq_refl). intros l Hl. destruct (Nat.ltb_spec j k); [auto|].
    assert (k = j) as -> by lia. apply in_app_iff in Hl as [Hl|Hl]; auto.
  - destruct KO as (r & -> & K2 & K3 & K4). destruct b; simpl.
    + exists r. split; [auto|]. split; [lia|]. split; [discriminate|]. intros l Hl. apply Q; auto.
    + rewrite (K3 eq_refl) in *. exists j. split; [auto|]. split; [lia|].
      split; [intros H; apply Nat.ltb_ge in H; lia|]. intros l Hl. apply in_app_iff in Hl as [Hl|Hl]; auto.
Qed.

Notation afree := (attempt_free E).
Ltac occ := intros ? ? ?; econstructor; eassumption.
Ltac same_word := let u := fresh in let v := fresh in let Hu := fresh in
  intros u v Hu; exists []; eexists; rewrite app_nil_r; econstructor; eassumption.
Ltac atp q := exists q; split; [reflexivity|]; split; [lia|]; split; [reflexivity|].
Ltac here := let l := fresh in intros l [<-|[]]; rewrite slice_nil; apply rightly_here; reflexivity.

Lemma diag_apt s at_ A (g : gram A) m i o :
  diag E s at_ A g m i o -> wf g -> i <= List.length s -> compl g -> afree g -> apt s at_ g i o.
Proof.
  intros H. induction H; intros Hw Hi Hc Ha; try exact I; try (intros ? []; fail).
  all: try (destruct Hw as [Hn Hw]).
  - atp i. here.
  - atp i. here.
  - atp i. intros ? [].
  - atp i. intros ? [].
  - atp i. here.
  - atp i. here.
  - atp i. intros ? [].
  - (* fmap *) eapply apt_wrap; [..|exact (IHdiag Hw Hi (ev_fmap _ _ _ _ _ _ Hc) (ev_fmap _ _ _ _ _ _ Ha))]; [occ| |simpl; auto].
    intros u0 v0 Hu. destruct (ev_here _ _ _ _ Hc _ _ Hu) as [v' Hv].
    exists [], v'. rewrite app_nil_r. econstructor; eauto.
  - eapply apt_wrap; [..|exact (IHdiag Hw Hi (ev_fmap _ _ _ _ _ _ Hc) (ev_fmap _ _ _ _ _ _ Ha))]; [occ| |simpl; auto].
    intros u0 v0 Hu. destruct (ev_here _ _ _ _ Hc _ _ Hu) as [v' Hv].
    exists [], v'. rewrite app_nil_r. econstructor; eauto.
  - (* alt *) destruct Hw as [Hw1 Hw2].
    eapply apt_wrap; [..|exact (IHdiag Hw1 Hi (ev_alt_l _ _ _ _ _ Hc) (ev_alt_l _ _ _ _ _ Ha))]; [occ| |simpl; auto].
    intros u0 v0 Hu. exists [], v0. rewrite app_nil_r. apply la_alt_l. exact Hu.
  - destruct Hw as [Hw1 Hw2].
    eapply apt_wrap; [..|exact (IHdiag Hw1 Hi (ev_alt_l _ _ _ _ _ Hc) (ev_alt_l _ _ _ _ _ Ha))]; [occ| |simpl; auto].
    intros u0 v0 Hu. exists [], v0. rewrite app_nil_r. apply la_alt_l. exact Hu.
  - destruct Hw as [Hw1 Hw2].
    destruct (IHdiag1 Hw1 Hi (ev_alt_l _ _ _ _ _ Hc) (ev_alt_l _ _ _ _ _ Ha)) as (r & -> & K2 & K3 & K4).
    specialize (K3 eq_refl). subst r.
    pose proof (IHdiag2 Hw2 Hi (ev_alt_r _ _ _ _ _ Hc) (ev_alt_r _ _ _ _ _ Ha)) as KO.
    pose proof (diag_valid E HE _ _ _ _ _ _ _ H0 Hw2 Hi (ev_alt_r _ _ _ _ _ Hc)) as VO.
    assert (P : forall l, In l X -> rightly E (GAlt p q) (slice s i i) l).
    { intros l Hl. eapply rightly_in; [occ| |apply K4; auto].
      intros u0 v0 Hu. exists [], v0. rewrite app_nil_r. apply la_alt_l. exact Hu. }
    assert (Q : forall k l, rightly E q (slice s i k) l -> rightly E (GAlt p q) (slice s i k) l).
    { intros k l. apply rightly_in; [intros; apply oc_alt_r; auto|].
      intros u0 v0 Hu. exists [], v0. rewrite app_nil_r. apply la_alt_r. exact Hu. }
    destruct o as [v k Y|[] l' Y|e]; simpl in *; auto.
    + intros l Hl. destruct VO as [VO _]. destruct (Nat.ltb_spec i k); [auto|].
      assert (k = i) as -> by lia. apply in_app_iff in Hl as [Hl|Hl]; auto.
    + destruct KO as (r & O1 & O2 & O3 & O4). exists r. split; [auto|]. split; [auto|]. split; [auto|]. auto.
    + destruct KO as (r & O1 & O2 & O3 & O4). specialize (O3 eq_refl). subst r.
      exists i. split; [auto|]. split; [lia|]. split; [auto|].
      intros l Hl. apply in_app_iff in Hl as [Hl|Hl]; auto.
  - (* bind *) destruct Hw as [Hw1 Hw2].
    pose proof (diag_valid E HE _ _ _ _ _ _ _ H Hw1 Hi (ev_bind_l _ _ _ _ _ _ Hc)) as (V1 & V2 & _).
    pose proof (IHdiag1 Hw1 Hi (ev_bind_l _ _ _ _ _ _ Hc) (ev_bind_l _ _ _ _ _ _ Ha)) as K1.
    pose proof (IHdiag2 (Hw2 v) (proj2 V1) (ev_bind_r _ _ _ _ _ _ v Hc) (ev_bind_r _ _ _ _ _ _ v Ha)) as K2.
    pose proof (diag_valid E HE _ _ _ _ _ _ _ H0 (Hw2 v) (proj2 V1) (ev_bind_r _ _ _ _ _ _ v Hc)) as VO.
    replace (d_after i j X o) with (on_dvalue (fun x => x) (d_after i j X o)) by (destruct o as [| []|]; reflexivity).
    revert K1 K2. apply (apt_after s at_ A B B p (f v)); auto.
    + occ.
    + occ.
    + intros u v' Hu. destruct (ev_here _ _ _ _ Hc _ _ Hu) as (w' & v'' & Hv). exists w', v''. eapply se_bind; eauto.
    + intros. eexists. eapply se_bind; eauto.
    + intros v' k Y ->. apply VO.
  - destruct Hw as [Hw1 Hw2].
    eapply apt_wrap; [..|exact (IHdiag Hw1 Hi (ev_bind_l _ _ _ _ _ _ Hc) (ev_bind_l _ _ _ _ _ _ Ha))]; [occ| |simpl; auto].
    intros u v' Hu. destruct (ev_here _ _ _ _ Hc _ _ Hu) as (w' & v'' & Hv). exists w', v''. eapply se_bind; eauto.
  - (* seq *) destruct Hw as [Hw1 Hw2].
    pose proof (diag_valid E HE _ _ _ _ _ _ _ H Hw1 Hi (ev_seq_l _ _ _ _ _ _ _ _ Hc)) as (V1 & V2 & _).
    pose proof (IHdiag1 Hw1 Hi (ev_seq_l _ _ _ _ _ _ _ _ Hc) (ev_seq_l _ _ _ _ _ _ _ _ Ha)) as K1.
    pose proof (IHdiag2 Hw2 (proj2 V1) (ev_seq_r _ _ _ _ _ _ _ _ Hc) (ev_seq_r _ _ _ _ _ _ _ _ Ha)) as K2.
    pose proof (diag_valid E HE _ _ _ _ _ _ _ H0 Hw2 (proj2 V1) (ev_seq_r _ _ _ _ _ _ _ _ Hc)) as VO.
    revert K1 K2. apply (apt_after s at_ A B C p q); auto.
    + occ.
    + intros; apply oc_seq_r; auto.
    + intros u v' Hu. destruct (ev_here _ _ _ _ Hc) as (w' & v'' & Hv). exists w', (merge v' v''). apply se_seq; auto.
    + intros. eexists. apply se_seq; eauto.
    + intros v' k Y ->. apply VO.
  - destruct Hw as [Hw1 Hw2].
    eapply apt_wrap; [..|exact (IHdiag Hw1 Hi (ev_seq_l _ _ _ _ _ _ _ _ Hc) (ev_seq_l _ _ _ _ _ _ _ _ Ha))]; [occ| |simpl; auto].
    intros u v' Hu. destruct (ev_here _ _ _ _ Hc) as (w' & v'' & Hv). exists w', (merge v' v''). apply se_seq; auto.
  - (* maybe *) eapply apt_wrap; [..|exact (IHdiag Hw Hi (ev_maybe _ _ _ _ Hc) (ev_maybe _ _ _ _ Ha))]; [occ| |simpl; auto].
    intros u0 v0 Hu. exists [], (Some v0). rewrite app_nil_r. constructor. exact Hu.
  - destruct (IHdiag Hw Hi (ev_maybe _ _ _ _ Hc) (ev_maybe _ _ _ _ Ha)) as (r & -> & K2 & K3 & K4).
    specialize (K3 eq_refl). subst r. intros l Hl. eapply rightly_in; [occ| |apply K4; auto].
    intros u0 v0 Hu. exists [], (Some v0). rewrite app_nil_r. constructor. exact Hu.
  - eapply apt_wrap; [..|exact (IHdiag Hw Hi (ev_maybe _ _ _ _ Hc) (ev_maybe _ _ _ _ Ha))]; [occ| |simpl; auto].
    intros u0 v0 Hu. exists [], (Some v0). rewrite app_nil_r. constructor. exact Hu.
  - (* many *)
    pose proof (diag_valid E HE _ _ _ _ _ _ _ H0 Hw Hi (ev_many _ _ _ _ Hc)) as (V1 & V2 & _).
    pose proof (diag_valid E HE _ _ _ _ _ _ _ H1 (conj Hn Hw) (proj2 V1) Hc) as (V3 & _).
    pose proof (IHdiag2 (conj Hn Hw) (proj2 V1) Hc Ha) as K2. intros l' Hl.
    rewrite <- (slice_app s i j k) by lia. eapply rightly_sub; [eauto| |exact (K2 _ Hl)].
    intros u0 v0 Hu. exists [], (v :: v0). rewrite app_nil_r. apply se_many; auto.
  - pose proof (diag_valid E HE _ _ _ _ _ _ _ H0 Hw Hi (ev_many _ _ _ _ Hc)) as (V1 & V2 & _).
    destruct (IHdiag2 (conj Hn Hw) (proj2 V1) Hc Ha) as (r & -> & K2 & K3 & K4).
    exists r. split; [auto|]. split; [lia|]. split; [intros ->; apply many_commits in H1; discriminate|].
    intros l' Hl. rewrite <- (slice_app s i j r) by lia. eapply rightly_sub; [eauto| |exact (K4 _ Hl)].
    intros u0 v0 Hu. exists [], (v :: v0). rewrite app_nil_r. apply se_many; auto.
  - destruct (IHdiag Hw Hi (ev_many _ _ _ _ Hc) (ev_many _ _ _ _ Ha)) as (r & -> & K2 & K3 & K4).
    specialize (K3 eq_refl). subst r. intros l Hl. eapply rightly_in; [occ| |apply K4; auto].
    intros u0 v0 Hu. exists [], [v0]. apply se_many; auto. constructor.
  - eapply apt_wrap; [..|exact (IHdiag Hw Hi (ev_many _ _ _ _ Hc) (ev_many _ _ _ _ Ha))]; [occ| |simpl; auto].
    intros u0 v0 Hu. exists [], [v0]. apply se_many; auto. constructor.
  - (* attempt *) apply ev_here in Ha. destruct Ha. exact I.
  - apply ev_here in Ha. destruct Ha. exact I.
  - (* label *) pose proof (IHdiag Hw Hi (ev_label _ _ _ _ _ Hc) (ev_label _ _ _ _ _ Ha)) as K.
    pose proof (diag_valid E HE _ _ _ _ _ _ _ H Hw Hi (ev_label _ _ _ _ _ Hc)) as VO.
    assert (Hs : forall u v, sentence E p u v -> exists w' v', sentence E (GLabel p x) (u ++ w') v').
    { intros u0 v0 Hu. exists [], v0. rewrite app_nil_r. constructor. exact Hu. }
    destruct o as [v j X|[] l X|e]; simpl in *; auto.
    + intros l Hl. destruct (Nat.ltb_spec i j).
      * eapply rightly_in; [occ|exact Hs|auto].
      * assert (j = i) as -> by lia. destruct Hl as [<-|[]]. rewrite slice_nil. apply rightly_here. reflexivity.
    + destruct K as (r & K1 & K2 & K3 & K4). exists r. split; [auto|]. split; [auto|]. split; [auto|].
      intros l' Hl. eapply rightly_in; [occ|exact Hs|auto].
    + destruct K as (r & K1 & K2 & K3 & K4). specialize (K3 eq_refl). subst r.
      exists i. split; [auto|]. split; [lia|]. split; [auto|].
      intros l' [<-|[]]. rewrite slice_nil. apply rightly_here. reflexivity.
  - eapply apt_wrap; [..|exact (IHdiag Hw Hi (ev_recover _ _ _ _ Hc) (ev_recover _ _ _ _ Ha))]; [occ|same_word|destruct o; auto].
  - eapply apt_wrap; [..|exact (IHdiag Hw Hi (ev_with _ _ _ _ _ _ Hc) (ev_with _ _ _ _ _ _ Ha))]; [occ|same_word|destruct o; auto].
  - eapply apt_wrap; [..|exact (IHdiag Hw Hi (ev_withfn _ _ _ _ _ _ Hc) (ev_withfn _ _ _ _ _ _ Ha))]; [occ|same_word|destruct o; auto].
  - eapply apt_wrap; [..|exact (IHdiag Hw Hi (ev_block _ _ _ _ Hc) (ev_block _ _ _ _ Ha))]; [occ|same_word|destruct o; auto].
  - eapply apt_wrap; [..|exact (IHdiag Hw Hi (ev_aligned _ _ _ _ Hc) (ev_aligned _ _ _ _ Ha))]; [occ|same_word|destruct o; auto].
  - atp i. here.
  - eapply apt_wrap; [..|exact (IHdiag Hw Hi (ev_indented _ _ _ _ _ Hc) (ev_indented _ _ _ _ _ Ha))]; [occ|same_word|destruct o; auto].
  - atp i. here.
  - eapply apt_wrap; [..|exact (IHdiag (HE d) Hi (ev_delay _ _ _ Hc) (ev_delay _ _ _ Ha))]; [occ|same_word|destruct o; auto].
Qed.
End Sound.
