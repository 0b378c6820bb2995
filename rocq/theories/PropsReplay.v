(** C84: the errors reported together are the ones one gets by mending one at a time. *)
From Verif Require Export Replay PropsRec PropsFirst PropsLL PropsExp PropsTotal Examples Locations.
From Verif Require Import Readme ReadmeSpec ReadmeLL ReadmeProofs.

(** what a parser that ends with a token leaves pending: nothing *)
Lemma shut_diag T V (E : env T V) (HE : wf_env E) (Sh : nat -> Prop) (HS : forall d, Sh d -> shut E Sh (E d)) s at_ A (p : gram T V A) m i o :
  diag E s at_ A p m i o -> wf p -> i <= List.length s -> everywhere E (completable_node E) p -> shut E Sh p ->
  forall v j X, o = DSucc v j X -> i < j -> X = [].
Proof.
  intros H. induction H; intros Hw Hi Hc Hsh v0 j0 X0 Ho Hlt; try discriminate; cbn [shut] in Hsh; try contradiction;
    try (injection Ho as <- <- <-; reflexivity); unfold wf in Hw; cbn [gall] in Hw.
  - injection Ho as <- <- <-. destruct Hw as [_ Hw]. eapply (IHdiag Hw Hi); eauto. eapply ev_fmap; eauto.
  - injection Ho as <- <- <-. destruct Hw as [_ [Hw _]]. destruct Hsh as [Hsh _]. eapply (IHdiag Hw Hi); eauto. eapply ev_alt_l; eauto.
  - destruct Hw as [_ [_ Hw]]. destruct Hsh as [_ Hsh].
    destruct o as [w k Y|[] l' Y|e]; cbn [d_else d_after on_dvalue d_label] in Ho; try discriminate. injection Ho as <- <- <-.
    rewrite (proj2 (Nat.ltb_lt _ _) Hlt). eapply (IHdiag2 Hw Hi); eauto. eapply ev_alt_r; eauto.
  - destruct Hw as [_ [Hw1 Hw2]]. destruct Hsh as [Hsh Hn].
    destruct o as [w k Y|[] l' Y|e]; cbn [d_else d_after on_dvalue d_label] in Ho; try discriminate. injection Ho as <- <- <-.
    pose proof (diag_valid E HE s at_ A p m i _ H Hw1 Hi (ev_seq_l _ _ _ _ _ _ _ _ Hc)) as (K1 & _).
    pose proof (diag_valid E HE s at_ B q m j _ H0 Hw2 (proj2 K1) (ev_seq_r _ _ _ _ _ _ _ _ Hc)) as (K2 & K3 & _).
    destruct (Nat.ltb_spec j k) as [L|L].
    + eapply (IHdiag2 Hw2 (proj2 K1)); eauto. eapply ev_seq_r; eauto.
    + exfalso. apply Hn. exists w. assert (k = j) as -> by lia. rewrite slice_nil in K3. exact K3.
  - injection Ho as <- <- <-. destruct Hw as [_ Hw]. eapply (IHdiag Hw Hi); eauto. eapply ev_maybe; eauto.
  - injection Ho as <- <- <-. lia.
  - destruct Hw as [_ Hw]. destruct o as [w k Y|[] l' Y|e]; cbn [d_else d_after on_dvalue d_label] in Ho; try discriminate. injection Ho as <- <- <-.
    rewrite (proj2 (Nat.ltb_lt _ _) Hlt). eapply (IHdiag Hw Hi); eauto. eapply ev_label; eauto.
  - destruct Hw as [_ Hw]. eapply (IHdiag Hw Hi); eauto. eapply ev_recover; eauto.
  - destruct Hw as [_ Hw]. eapply (IHdiag Hw Hi); eauto. eapply ev_with; eauto.
  - destruct Hw as [_ Hw]. eapply (IHdiag Hw Hi); eauto. eapply ev_withfn; eauto.
  - eapply (IHdiag (HE d) Hi); eauto. eapply ev_delay; eauto.
Qed.

Section C84.
Context {T : Type} {V : nat -> Type}.
Variable E : env T V.
Context {A : Type}.
Variable g : gram T V A.
Hypothesis HE : wf_env E.
Hypothesis Hg : wf g.
Hypothesis Hn : no_layout g.
Hypothesis HN : forall d, no_layout (E d).
Hypothesis Hc : everywhere E (completable_node E) g.
Hypothesis HL : LL1 E g.
Hypothesis Hq : everywhere E (quiet_node E) g.
Hypothesis Hgd : guarded E g.
Hypothesis Ha : attempt_free E g.
Variable put : string -> list (T + string) -> list T -> Prop.
Variable fill : string -> list T.
Hypothesis Hw : everywhere E (with_node E put fill) g.
Hypothesis He : everywhere E eof_free_node g.
Hypothesis Hf : everywhere E forward_node g.

Lemma fits_of (same : list string -> list string -> Prop) : everywhere E (item_node E same) g -> everywhere E (fit E same put fill) g.
Proof using HE Hg Hn HN Hc Hq Hgd Ha Hw He Hf.
  intros HI B q Ho. split; [split; [eapply occurs_wf; eauto|split; [apply Hc|apply Hq]; auto]|].
  split; [split; [apply (proj1 (guarded_everywhere E A g) Hgd B q Ho)|]|].
  - assert (K : everywhere E (fun B (q : gram T V B) => no_layout q) g).
    { intros C r0 Ho'. clear - Hn HN Ho'. induction Ho'; auto; try (apply IHHo'; apply Hn). }
    apply K; auto.
  - split; [split; [apply Ha|apply Hw]; auto|]. split; [apply He; auto|]. split; [apply Hf; auto|apply HI; auto].
Qed.

Lemma one_at_a_time (same : list string -> list string -> Prop) :
  (forall X, same X X) -> (forall X X' Y Y', same X X' -> same Y Y' -> same (X ++ Y) (X' ++ Y')) ->
  everywhere E (item_node E same) g ->
  forall n s mi get fmt locof r errs v, cohere get s locof ->
  parse E n (seql g GEof) s true mi get fmt = Ret r ->
  unwrap r false = Raises errs -> unwrap r true = Returns v ->
  exists es, edits_in es = s /\ one_by_one E g put same s locof v 0 [] es errs.
Proof using HE Hg Hn HN Hc HL Hq Hgd Ha Hw He Hf.
  intros S1 S2 HI n s mi get fmt locof r errs v Hco H Hu Hv. destruct HL as (F & L1 & L2).
  pose proof (fits_of same HI) as Fg.
  pose proof (proj1 (parse_rec_iff _ _ _ _ _ _ _ _ _) H) as [HF' Hfmt].
  assert (Hl : lay_ok E (seql g GEof) s locof) by (apply lay_eof; right; auto).
  pose proof (rec_iff E (seql g GEof) s get locof HE (wf_eof _ _ Hg) Hco Hl 0 (init_ctx get) mi (Some mi) ltac:(lia)
    (pos_init _ _)) as HR. cbn [ctx_mark init_ctx] in HR.
  assert (HS : RecSpec.rsem E s locof A (seql g GEof) 0 0 mi (Some mi) (rab (pr_result r))).
  { apply HR. exists n. rewrite HF'. reflexivity. }
  pose proof (rsem_whole E HE HN F L2 same S1 S2 put fill s locof g Fg L1 (pr_fmt r) _ _ _ HS) as K.
  pose proof (proj1 (unwrap_verdict r false _) eq_refl) as V1. rewrite Hu in V1.
  pose proof (proj1 (unwrap_verdict r true _) eq_refl) as V2. rewrite Hv in V2.
  destruct (rab (pr_result r)) as [v0 j X|b l X|nr b l X rs|e] eqn:ER; try discriminate; [|destruct V1].
  cbn [verdict] in V1, V2. destruct V2 as [[_ V2]|(y & C2 & V2)]; [discriminate|]. injection V2 as ->.
  assert (Hin : In y rs). { destruct C2 as (l1 & l2 & -> & _). apply in_or_app. right. left. auto. }
  destruct V1 as [[-> _]|(x & C1 & V1)]; [destruct Hin|]. rewrite (chosen_unique _ _ _ C1 C2) in V1. injection V1 as ->.
  exact (K y Hin).
Qed.
Lemma incl_items : everywhere E (item_node E (@incl string)) g.
Proof using.
  intros B q _. destruct q; try exact I. cbn. intros s0 at_ m i v0 j X Z Y _ _ _ _ l Hl. apply in_or_app. auto.
Qed.
Lemma eq_items Sh : everywhere E (shut_items E Sh) g -> (forall d, Sh d -> shut E Sh (E d)) -> everywhere E (item_node E eq) g.
Proof using HE Hg Hc.
  intros Hs HS B q Ho. specialize (Hs B q Ho). destruct q; try exact I. cbn in *. intros s0 at_ m i v0 j X Z Y D Hi Hlt <-.
  assert (Hwq : wf q) by (pose proof (occurs_wf E _ _ _ _ HE Ho Hg) as [_ Q]; exact Q).
  assert (Hcq : everywhere E (completable_node E) q).
  { eapply ev_many. intros B' q' Ho'. apply Hc. eapply occurs_trans; eauto. }
  rewrite (shut_diag T V E HE Sh HS s0 at_ _ q m i _ D Hwq Hi Hcq Hs v0 j X eq_refl Hlt). reflexivity.
Qed.
End C84.
Lemma incl_app2 {A} (X X' Y Y' : list A) : incl X X' -> incl Y Y' -> incl (X ++ Y) (X' ++ Y').
Proof. intros H1 H2 l Hl. apply in_app_or in Hl as [Hl|Hl]; apply in_or_app; auto. Qed.
Lemma eq_app2 {A} (X X' Y Y' : list A) : X = X' -> Y = Y' -> X ++ Y = X' ++ Y'.
Proof. intros -> ->. reflexivity. Qed.
Lemma tokens_node T V (E : env T V) A (g : gram T V A) : with_free E g -> everywhere E (with_node E (tokens E g) (fun _ => [])) g.
Proof.
  intros H B q Ho. specialize (H B q Ho).
  destruct q; try (split; exact I); try (destruct H; exact I); (split; [exact I|]); (split; [|reflexivity]).
  - eexists _, _. split; [exact Ho|split; reflexivity].
  - eexists _, _. split; [exact Ho|split; reflexivity].
Qed.
Lemma filling_node T V (E : env T V) A (g : gram T V A) fill : single_withs E g -> everywhere E (placeholder_node E fill) g ->
  everywhere E (with_node E (filling E g fill) fill) g.
Proof.
  assert (K : forall u : list T, u = flat_map (fun y : T + string => match y with inl t => [t] | inr l' => fill l' end) (map inl u)).
  { induction u as [|t u IH]; [reflexivity|]. cbn. f_equal. exact IH. }
  intros H1 H2 B q Ho. specialize (H1 B q Ho). specialize (H2 B q Ho). split; [exact H1|]. destruct q; try exact I.
  - split; [|reflexivity]. eexists _, _. split; [exact Ho|split; reflexivity].
  - split; [|apply K]. eexists _, _. split; [exact Ho|split; reflexivity].
  - split; [exact H2|]. split; [|cbn; rewrite app_nil_r; reflexivity]. eexists _, _. split; [exact Ho|split; reflexivity].
  - intros s0 i x Hx. split; [eapply H2; eauto|]. split; [|cbn; rewrite app_nil_r; reflexivity].
    eexists _, _. split; [exact Ho|]. exists s0, i, x. auto.
Qed.

(** ** C84  The errors reported together are those one gets by mending one error at a
    time: perform the first reported operation only, and parse the text again, without
    recovery: the error is at the place of the second operation, and expects nothing the
    second reported error does not expect; and so on.  After the last operation the text
    is accepted, with the recovered value. *)
Theorem C84_one_at_a_time :
  forall T V (E : env T V) n A (g : gram T V A) s mi get fmt locof r errs v,
  wf_env E -> wf g -> no_layout g -> (forall d, no_layout (E d)) -> cohere get s locof ->
  everywhere E (completable_node E) g -> LL1 E g -> everywhere E (quiet_node E) g -> guarded E g ->
  attempt_free E g -> with_free E g -> everywhere E eof_free_node g -> everywhere E forward_node g ->
  parse E n (seql g GEof) s true mi get fmt = Ret r ->
  unwrap r false = Raises errs -> unwrap r true = Returns v ->
  exists es, edits_in es = s /\ one_by_one E g (tokens E g) (@incl string) s locof v 0 [] es errs.
Proof.
  intros T V E n A g s mi get fmt locof r errs v HE Hg Hn HN Hco Hc HL Hq Hgd Ha Hw He Hf H Hu Hv.
  exact (one_at_a_time E g HE Hg Hn HN Hc HL Hq Hgd Ha (tokens E g) (fun _ => []) (tokens_node _ _ _ _ _ Hw) He Hf (@incl string)
    (incl_refl (A := _)) (@incl_app2 _) (incl_items E g) n s mi get fmt locof r errs v Hco H Hu Hv).
Qed.
Print Assumptions C84_one_at_a_time.

(** If the items of every repetition end with a token, the errors are the same: also what
    they expect, in the same order. *)
Theorem C84_exactly :
  forall T V (E : env T V) n A (g : gram T V A) s mi get fmt locof r errs v Sh,
  wf_env E -> wf g -> no_layout g -> (forall d, no_layout (E d)) -> cohere get s locof ->
  everywhere E (completable_node E) g -> LL1 E g -> everywhere E (quiet_node E) g -> guarded E g ->
  attempt_free E g -> with_free E g -> everywhere E eof_free_node g -> everywhere E forward_node g ->
  everywhere E (shut_items E Sh) g -> (forall d, Sh d -> shut E Sh (E d)) ->
  parse E n (seql g GEof) s true mi get fmt = Ret r ->
  unwrap r false = Raises errs -> unwrap r true = Returns v ->
  exists es, edits_in es = s /\ one_by_one E g (tokens E g) eq s locof v 0 [] es errs.
Proof.
  intros T V E n A g s mi get fmt locof r errs v Sh HE Hg Hn HN Hco Hc HL Hq Hgd Ha Hw He Hf Hs HS H Hu Hv.
  exact (one_at_a_time E g HE Hg Hn HN Hc HL Hq Hgd Ha (tokens E g) (fun _ => []) (tokens_node _ _ _ _ _ Hw) He Hf eq
    (fun X => eq_refl) (@eq_app2 _) (eq_items E g HE Hg Hc Sh Hs HS) n s mi get fmt locof r errs v Hco H Hu Hv).
Qed.
Print Assumptions C84_exactly.

Definition names_all T V (E : env T V) A (g : gram T V A) (w : list T) (e : erroritem) : Prop :=
  (forall t, viable E g (w ++ [t]) -> mentions E g (ei_expected e) t) /\
  (forall v, sentence E g w v -> In "end of file"%string (ei_expected e)).
Lemma replay_complete T V (E : env T V) A (g : gram T V A) s locof v put es errs :
  wf_env E -> wf g -> no_layout g -> (forall d, no_layout (E d)) ->
  everywhere E (completable_node E) g -> LL1 E g ->
  everywhere E eof_free_node g ->
  everywhere E one_token_node g -> everywhere E (labelled_node E) g -> ~ anonymous A g ->
  everywhere E (clear_end_node E) g ->
  one_by_one E g put (@incl string) s locof v 0 [] es errs -> each_error put (names_all T V E A g) [] es errs.
Proof.
  intros HE Hg Hn HN Hc HL He H1 Hlab Han Hce K2.
  assert (HQ : forall w rest e, complains E g (w ++ rest) (List.length w) (fun X => incl X (ei_expected e)) ->
    names_all T V E A g w e).
  { intros w rest e HC.
    destruct (HC false 0%Z default_get_loc default_fmt_loc default_locof (default_cohere _)) as (n0 & r0 & e0 & P1 & P2 & P3 & P4 & P5).
    assert (Hnl : everywhere E (fun B q => ~ is_layout B q) g).
    { intros B q Ho. assert (K : everywhere E (fun B (q : gram T V B) => no_layout q) g).
      { intros C q0 Ho'. clear - Hn HN Ho'. induction Ho'; auto; try (apply IHHo'; apply Hn). }
      specialize (K B q Ho). destruct q; apply K. }
    destruct (C53_expected_complete T V E n0 A g (w ++ rest) 0%Z default_get_loc default_fmt_loc default_locof r0 false [e0]
      HE Hg (default_cohere _) (or_introl (default_exact _)) Hc HL H1 Hnl Hlab Han Hce P1 P2) as (p & e1 & Q1 & Q2 & Q3 & Q4 & Q5).
    injection Q1 as <-. rewrite P4 in Q2. unfold default_locof in Q2. assert (p = List.length w) as -> by (injection Q2; lia).
    rewrite firstn_app, Nat.sub_diag, firstn_all, app_nil_r in Q4, Q5. split.
    - intros t Ht. destruct (Q4 t Ht) as (l & B & q & M1 & M2). exists l, B, q. split; [apply P5; auto|auto].
    - intros v0 Hv0. apply P5. apply (Q5 ltac:(intros B q Ho; specialize (He B q Ho); destruct q; cbn in *; auto) v0 Hv0). }
  clear - K2 HQ. revert HQ. generalize (names_all T V E A g). intros P HP.
  revert K2. generalize (@nil T), 0, errs. induction es as [|e es IH]; intros w i errs0 K.
  - apply K.
  - destruct e as [t|ts|lb x]; cbn [one_by_one each_error] in *.
    + apply (IH _ _ _ (proj2 K)).
    + destruct K as (e & errs' & -> & _ & _ & C & _ & K). exists e, errs'. split; [auto|]. split; [eapply HP; eauto|eapply IH; eauto].
    + destruct K as (u & e & errs' & Hput & -> & _ & _ & C & K). exists u, e, errs'. split; [auto|]. split; [auto|].
      split; [eapply HP; eauto|eapply IH; eauto].
Qed.
(** So also the later errors are complete (C53 says it of the first one): every token that
    may follow the text mended so far is mentioned, and the end of file if it may end. *)
Theorem C84_later_errors_complete :
  forall T V (E : env T V) n A (g : gram T V A) s mi get fmt locof r errs v,
  wf_env E -> wf g -> no_layout g -> (forall d, no_layout (E d)) -> cohere get s locof ->
  everywhere E (completable_node E) g -> LL1 E g -> everywhere E (quiet_node E) g -> guarded E g ->
  attempt_free E g -> with_free E g -> everywhere E eof_free_node g -> everywhere E forward_node g ->
  everywhere E one_token_node g -> everywhere E (labelled_node E) g -> ~ anonymous A g ->
  everywhere E (clear_end_node E) g ->
  parse E n (seql g GEof) s true mi get fmt = Ret r ->
  unwrap r false = Raises errs -> unwrap r true = Returns v ->
  exists es, edits_in es = s /\
    one_by_one E g (tokens E g) (@incl string) s locof v 0 [] es errs /\
    each_error (tokens E g) (fun w e =>
      (forall t, viable E g (w ++ [t]) -> mentions E g (ei_expected e) t) /\
      (forall v, sentence E g w v -> In "end of file"%string (ei_expected e))) [] es errs.
Proof.
  intros T V E n A g s mi get fmt locof r errs v HE Hg Hn HN Hco Hc HL Hq Hgd Ha Hw He Hf H1 Hlab Han Hce H Hu Hv.
  destruct (C84_one_at_a_time T V E n A g s mi get fmt locof r errs v HE Hg Hn HN Hco Hc HL Hq Hgd Ha Hw He Hf H Hu Hv) as (es & K1 & K2).
  exists es. split; [auto|]. split; [auto|].
  eapply replay_complete; eauto.
Qed.
Print Assumptions C84_later_errors_complete.

(** ** A list of digits in brackets: [digit ("," digit)*] *)
Definition rp_E : env char ex_V := fun _ => ex_digit.
Definition rp_list : ex_gram (Z * list Z) :=
  seql (seqr (ex_sym "[") (seq ex_digit (GMany (seqr (ex_sym ",") ex_digit)))) (ex_sym "]").
Lemma rp_wf : wf_env rp_E /\ wf rp_list /\ no_layout rp_list /\ forall d, no_layout (rp_E d).
Proof. split; [intros d; solve_gall|]. split; [solve_gall|]. split; [solve_gall|]. intros d; solve_gall. Qed.
Lemma rp_sym a : sentence rp_E (ex_sym a) [ex_ch a] (ex_ch a).
Proof. constructor. apply N.eqb_refl. Qed.
Lemma rp_digit : sentence rp_E ex_digit (ex_str "1") 1%Z.
Proof. apply (la_fmap rp_E _ _ _ _ _ 49%N); [|reflexivity]. constructor. constructor. reflexivity. Qed.
Lemma rp_no_empty v : ~ lang rp_E _ (seqr (ex_sym ",") ex_digit) [] v.
Proof.
  intros H. change (@nil (char + string)) with (map (@inl char string) []) in H. apply (sent_inv rp_E _ _ []) in H.
  destruct H as (w1 & w2 & v1 & v2 & E0 & _ & S1 & _). apply sent_inv in S1 as [-> _]. discriminate.
Qed.
Lemma rp_completable : everywhere rp_E (completable_node rp_E) rp_list.
Proof.
  apply everywhere_gall; [intros d|]; solve_gall; intros; try (eexists; reflexivity);
    try (eexists _, _; apply rp_sym); try (eexists _, _; apply rp_digit); try (exists [], []; constructor).
  eexists _, _. apply (se_seq rp_E _ _ _ ex_digit _ _ (ex_str "1") [] 1%Z []); [apply rp_digit|constructor].
Qed.
Lemma rp_quiet : everywhere rp_E (quiet_node rp_E) rp_list.
Proof.
  apply everywhere_gall; [intros d|]; solve_gall; intros; try (eexists; reflexivity). apply rp_no_empty.
Qed.
Lemma rp_no_delay : everywhere rp_E (fun B q => match q with GDelay _ => False | _ => True end) rp_list.
Proof. apply everywhere_gall; [intros d|]; solve_gall. Qed.
Lemma rp_guarded : guarded rp_E rp_list.
Proof. intros d Ho. destruct (rp_no_delay _ _ Ho). Qed.
Lemma rp_frees : attempt_free rp_E rp_list /\ with_free rp_E rp_list /\ everywhere rp_E eof_free_node rp_list /\
  everywhere rp_E forward_node rp_list.
Proof. split; [|split; [|split]]; (apply everywhere_gall; [intros d|]; solve_gall). Qed.
Lemma rp_first_comma o : first_is rp_E (seqr (ex_sym ",") ex_digit) o -> o = Some (ex_ch ",").
Proof.
  destruct o as [t|]; [|contradiction]. intros (w & v & H). apply sent_inv in H as (w1 & w2 & v1 & v2 & E0 & _ & S1 & _).
  apply sent_inv in S1 as [-> S1]. injection E0 as -> _. apply N.eqb_eq in S1. subst. reflexivity.
Qed.
Lemma rp_LL1 : LL1 rp_E rp_list.
Proof.
  exists (fun _ _ => False). split; [|intros d; cbn; auto]. cbn [ll1 rp_list seql seqr seq ex_digit ex_sym].
  split; [|exact I]. split; [exact I|]. split; [exact I|]. split; [split; exact I|].
  split; [intros [v H]; exact (rp_no_empty v H)|].
  intros o H1 H2. apply rp_first_comma in H1. subst o. destruct H2 as [(w & v & H2)|[[v H2] _]].
  - apply sent_inv in H2 as [H2 H3]. injection H2 as <- _. discriminate.
  - apply sent_inv in H2 as [H2 _]. discriminate.
Qed.
Lemma rp_shut : everywhere rp_E (shut_items rp_E (fun _ => True)) rp_list.
Proof.
  apply everywhere_gall; [intros d|]; solve_gall. intros [v H]. apply sent_inv in H as (v0 & H & _).
  apply sent_inv in H. apply sent_inv in H as [H _]. discriminate.
Qed.
Theorem C84_case : forall n s r errs v,
  scannerless_parse rp_E n (seql rp_list GEof) s true = Ret r ->
  unwrap r false = Raises errs -> unwrap r true = Returns v ->
  exists es, edits_in es = s /\ one_by_one rp_E rp_list (tokens rp_E rp_list) eq s (true_loc s) v 0 [] es errs.
Proof.
  intros n s r errs v H Hu Hv. destruct rp_wf as (W1 & W2 & W3 & W4). destruct rp_frees as (F1 & F2 & F3 & F4).
  refine (C84_exactly _ _ _ _ _ _ _ _ _ _ _ _ _ _ (fun _ => True) W1 W2 W3 W4 (scannerless_cohere s) rp_completable rp_LL1 rp_quiet rp_guarded
    F1 F2 F3 F4 rp_shut _ H Hu Hv). intros d _. exact I.
Qed.
Print Assumptions C84_case.
Definition rp_errors {A} (o : out (presult char A)) : list (option rop * list string * Z) :=
  match o with
  | Ret r => match unwrap r false with
             | Raises es => map (fun e => (ei_op e, ei_expected e, loc_pos (ei_loc e))) es | _ => [] end
  | _ => []
  end.
(** "[x1": two errors are reported together; mending the first one by hand gives "[1",
    whose error is the second one *)
Example C84_two_errors :
  rp_errors (scannerless_parse rp_E 20 (seql rp_list GEof) (ex_str "[x1") true) =
    [(Some (Skip 1), ["digit"%string], 1%Z); (Some (Insert "']'"), ["','"; "']'"]%string, 3%Z)] /\
  rp_errors (scannerless_parse rp_E 20 (seql rp_list GEof) (ex_str "[x1") false) = [(None, ["digit"%string], 1%Z)] /\
  rp_errors (scannerless_parse rp_E 20 (seql rp_list GEof) (ex_str "[1") false) = [(None, ["','"; "']'"]%string, 2%Z)] /\
  exists r v, scannerless_parse rp_E 20 (seql rp_list GEof) (ex_str "[1]") false = Ret r /\ unwrap r false = Returns v /\
    exists r', scannerless_parse rp_E 20 (seql rp_list GEof) (ex_str "[x1") true = Ret r' /\ unwrap r' true = Returns v.
Proof.
  split; [vm_compute; reflexivity|]. split; [vm_compute; reflexivity|]. split; [vm_compute; reflexivity|].
  do 2 eexists. split; [vm_compute; reflexivity|]. split; [vm_compute; reflexivity|].
  eexists. split; [vm_compute; reflexivity|]. vm_compute. reflexivity.
Qed.
(** The errors need not be the same if an item of a repetition ends with an optional part:
    many('d' 'a' 'b'?) 'c' on "dxc" reports for x what the item could still read; the text
    mended so far, "daxc", does not. *)
Definition rp_quirk : ex_gram (list char * char) :=
  seq (GMany (seql (seqr (ex_sym "d") (ex_sym "a")) (GMaybe (ex_sym "b")))) (ex_sym "c").
Example C84_many_forgets :
  rp_errors (scannerless_parse lay_E 20 (seql rp_quirk GEof) (ex_str "dxc") true) =
    [(Some (Insert "'a'"), ["'a'"%string], 1%Z); (Some (Skip 1), ["'b'"; "'d'"; "'c'"]%string, 1%Z)] /\
  rp_errors (scannerless_parse lay_E 20 (seql rp_quirk GEof) (ex_str "daxc") false) =
    [(None, ["'d'"; "'c'"]%string, 2%Z)].
Proof. split; vm_compute; reflexivity. Qed.

(** ** The expression parser of the README *)
Lemma star_forward f : forward_re (re_star f) /\ sure_re (re_star f).
Proof.
  split.
  - intros s s' i i' _ _ Hs. unfold re_star. rewrite Hs. f_equal. f_equal. lia.
  - right. intros s i _. eexists _, _. reflexivity.
Qed.
Lemma plus_forward f : forward_re (re_plus f) /\ sure_re (re_plus f).
Proof.
  split.
  - intros s s' i i' _ _ Hs. unfold re_plus. rewrite Hs. destruct (run_len f (skipn i s)); [auto|]. f_equal. f_equal. lia.
  - left. intros s i v. unfold re_plus. destruct (run_len f (skipn i s)) as [|k]; [discriminate|].
    intros H. injection H as H _. lia.
Qed.
Lemma class_forward f : forward_re (re_class f) /\ sure_re (re_class f).
Proof.
  split.
  - intros s s' i i' _ _ Hs. unfold re_class. rewrite Hs. destruct (skipn i s) as [|c l]; [auto|]. destruct (f c); [|auto].
    f_equal. f_equal. lia.
  - left. intros s i v. unfold re_class. destruct (skipn i s) as [|c l]; [discriminate|]. destruct (f c); [|discriminate].
    intros H. injection H as H _. lia.
Qed.
Theorem C84_readme : forall space digit dval, charset space digit ->
  let E := expr_E space digit dval in
  forall n src r errs v,
  scannerless_parse E n (expr_parser) src true = Ret r ->
  unwrap r false = Raises errs -> unwrap r true = Returns v ->
  exists es, edits_in es = src /\ one_by_one E (expr) (tokens E expr) (@incl string) src (true_loc src) v 0 [] es errs.
Proof.
  intros space digit dval cs E n src r errs v H Hu Hv.
  refine (C84_one_at_a_time char expr_V E n Z expr src 5 scannerless_get_loc linecol_fmt (true_loc src) r errs v
    (expr_wf_E space digit dval) expr_wf _ _ (scannerless_cohere src) _ _ _ _ _ _ _ _ H Hu Hv).
  - solve_gall.
  - intros d. solve_gall.
  - apply expr_completable; auto.
  - apply expr_LL1; auto.
  - apply expr_quiet; auto.
  - apply expr_guarded; auto.
  - apply everywhere_gall; [intros d|]; solve_gall.
  - apply expr_with_free; auto.
  - apply everywhere_gall; [intros d|]; solve_gall.
  - apply everywhere_gall; [intros d|]; solve_gall; try apply star_forward; try apply plus_forward; try apply class_forward.
Qed.
Print Assumptions C84_readme.
(** "(1+*2": delete the star (a number or an opening parenthesis was expected), and close
    the parenthesis; the text without the star has the second error *)
Example C84_readme_case :
  let E := expr_E ascii_space ascii_digit ascii_dval in
  rp_errors (scannerless_parse E 200 expr_parser (ex_str "(1+*2") true) =
    [(Some (Skip 1), ["'('"%string], 3%Z); (Some (Insert "')'"), ["')'"%string], 5%Z)] /\
  rp_errors (scannerless_parse E 200 expr_parser (ex_str "(1+2") false) = [(None, ["')'"%string], 4%Z)].
Proof. split; vm_compute; reflexivity. Qed.

(** ** Placeholders: [recover_with] *)
(** If what [recover_with] puts in is the value of a text that can be written there, and
    nothing can follow that text inside the part, then this text is what one writes when
    mending by hand: the errors are again those one meets one after the other. *)
Theorem C84_placeholders :
  forall T V (E : env T V) n A (g : gram T V A) s mi get fmt locof r errs v fill,
  wf_env E -> wf g -> no_layout g -> (forall d, no_layout (E d)) -> cohere get s locof ->
  everywhere E (completable_node E) g -> LL1 E g -> everywhere E (quiet_node E) g -> guarded E g ->
  attempt_free E g -> single_withs E g -> everywhere E (placeholder_node E fill) g ->
  everywhere E eof_free_node g -> everywhere E forward_node g ->
  parse E n (seql g GEof) s true mi get fmt = Ret r ->
  unwrap r false = Raises errs -> unwrap r true = Returns v ->
  exists es, edits_in es = s /\ one_by_one E g (filling E g fill) (@incl string) s locof v 0 [] es errs.
Proof.
  intros T V E n A g s mi get fmt locof r errs v fill HE Hg Hn HN Hco Hc HL Hq Hgd Ha Hs Hp He Hf H Hu Hv.
  exact (one_at_a_time E g HE Hg Hn HN Hc HL Hq Hgd Ha (filling E g fill) fill (filling_node _ _ _ _ _ _ Hs Hp) He Hf (@incl string)
    (incl_refl (A := _)) (@incl_app2 _) (incl_items E g) n s mi get fmt locof r errs v Hco H Hu Hv).
Qed.
Print Assumptions C84_placeholders.
Theorem C84_placeholders_exactly :
  forall T V (E : env T V) n A (g : gram T V A) s mi get fmt locof r errs v fill Sh,
  wf_env E -> wf g -> no_layout g -> (forall d, no_layout (E d)) -> cohere get s locof ->
  everywhere E (completable_node E) g -> LL1 E g -> everywhere E (quiet_node E) g -> guarded E g ->
  attempt_free E g -> single_withs E g -> everywhere E (placeholder_node E fill) g ->
  everywhere E eof_free_node g -> everywhere E forward_node g ->
  everywhere E (shut_items E Sh) g -> (forall d, Sh d -> shut E Sh (E d)) ->
  parse E n (seql g GEof) s true mi get fmt = Ret r ->
  unwrap r false = Raises errs -> unwrap r true = Returns v ->
  exists es, edits_in es = s /\ one_by_one E g (filling E g fill) eq s locof v 0 [] es errs.
Proof.
  intros T V E n A g s mi get fmt locof r errs v fill Sh HE Hg Hn HN Hco Hc HL Hq Hgd Ha Hs Hp He Hf HI HS H Hu Hv.
  exact (one_at_a_time E g HE Hg Hn HN Hc HL Hq Hgd Ha (filling E g fill) fill (filling_node _ _ _ _ _ _ Hs Hp) He Hf eq
    (fun X => eq_refl) (@eq_app2 _) (eq_items E g HE Hg Hc Sh HI HS) n s mi get fmt locof r errs v Hco H Hu Hv).
Qed.
Print Assumptions C84_placeholders_exactly.

Theorem C84_placeholders_complete :
  forall T V (E : env T V) n A (g : gram T V A) s mi get fmt locof r errs v fill,
  wf_env E -> wf g -> no_layout g -> (forall d, no_layout (E d)) -> cohere get s locof ->
  everywhere E (completable_node E) g -> LL1 E g -> everywhere E (quiet_node E) g -> guarded E g ->
  attempt_free E g -> single_withs E g -> everywhere E (placeholder_node E fill) g ->
  everywhere E eof_free_node g -> everywhere E forward_node g ->
  everywhere E one_token_node g -> everywhere E (labelled_node E) g -> ~ anonymous A g ->
  everywhere E (clear_end_node E) g ->
  parse E n (seql g GEof) s true mi get fmt = Ret r ->
  unwrap r false = Raises errs -> unwrap r true = Returns v ->
  exists es, edits_in es = s /\
    one_by_one E g (filling E g fill) (@incl string) s locof v 0 [] es errs /\
    each_error (filling E g fill) (fun w e =>
      (forall t, viable E g (w ++ [t]) -> mentions E g (ei_expected e) t) /\
      (forall v, sentence E g w v -> In "end of file"%string (ei_expected e))) [] es errs.
Proof.
  intros T V E n A g s mi get fmt locof r errs v fill HE Hg Hn HN Hco Hc HL Hq Hgd Ha Hs Hp He Hf H1 Hlab Han Hce H Hu Hv.
  destruct (C84_placeholders T V E n A g s mi get fmt locof r errs v fill HE Hg Hn HN Hco Hc HL Hq Hgd Ha Hs Hp He Hf H Hu Hv) as (es & K1 & K2).
  exists es. split; [auto|]. split; [auto|]. eapply replay_complete; eauto.
Qed.
Print Assumptions C84_placeholders_complete.
