(** Properties C46-C49: valid prefixes, LL(1) completeness, acceptance of the
    repaired input and exact error positions. *)
From Verif Require Import LL DiagProofs PropsDiag PropsRecovery PropsTotal PropsFirst FirstSpec Examples.

Section Aux.
Context {T : Type} {V : nat -> Type}.
Variable E : env T V.
Notation gram := (gram T V).

Lemma ll1_mono F A (g : gram A) : forall K K' : option T -> Prop,
  (forall o, K' o -> K o) -> ll1 E F g K -> ll1 E F g K'.
Proof.
  assert (S : forall B (q : gram B) (K K' : option T -> Prop), (forall o, K' o -> K o) ->
    forall o, starts E q K' o -> starts E q K o).
  { intros B q K K' H o [Ho|[H1 H2]]; [left|right]; auto. }
  induction g; intros K K' HK HL; cbn in *; auto.
  - eauto.
  - destruct HL as (L1 & L2 & L3 & L4). split; [eauto|]. split; [eauto|]. split; [auto|].
    intros o H1 H2. eapply L4; [exact H1|]. eapply S; eauto.
  - destruct HL as (L1 & L2). split.
    + eapply IHg; [|exact L1]. intros o (w & v & H1 & H2). exists w, v. split; auto. eapply S; eauto.
    + intros w v Hv. eapply H; eauto.
  - destruct HL as (L1 & L2). split; [|eauto]. eapply IHg1; [|exact L1]. apply S. auto.
  - destruct HL as (L1 & L2 & L3). split; [eauto|]. split; [auto|]. intros o H1 H2. eapply L3; eauto.
  - destruct HL as (L1 & L2 & L3). split; [|split; [auto|]].
    + eapply IHg; [|exact L1]. intros o [H|H]; auto.
    + intros o H1 H2. eapply L3; eauto.
  - eauto.
  - eauto.
  - eauto.
  - eauto.
  - eauto.
Qed.

Lemma oc_eof_match B (q : gram B) A (g : gram A) (P : forall B, gram B -> Prop) : occurs E q A g ->
  match g with
  | GSeq p p' m => P _ (GSeq p p' m) -> everywhere E P p -> everywhere E P p' -> P B q
  | GEof => P _ GEof -> P B q
  | _ => True
  end.
Proof. intros H. destruct H; auto. destruct q; auto. Qed.
Lemma ev_eof (P : forall B, gram B -> Prop) A (g : gram A) : P _ (seql g GEof) -> P _ GEof -> everywhere E P g -> everywhere E P (seql g GEof).
Proof.
  intros H1 H2 H3 B q Ho. apply (oc_eof_match _ _ _ _ P Ho); auto.
  intros B' q' Ho'. apply (oc_eof_match _ _ _ _ P Ho'); auto.
Qed.
Lemma oc_delay_match d A (g : gram A) : occurs E (GDelay d) A g ->
  match g with
  | GSeq p p' _ => occurs E (GDelay d) _ p \/ occurs E (GDelay d) _ p'
  | GEof => False
  | _ => True
  end.
Proof. intros H. destruct H; auto. Qed.
Lemma guarded_eof A (g : gram A) : guarded E g -> guarded E (seql g GEof).
Proof.
  intros H d Ho. apply oc_delay_match in Ho as [Ho|Ho]; [apply H; auto|]. apply oc_delay_match in Ho as [].
Qed.
Lemma quiet_eof A (g : gram A) : everywhere E (quiet_node E) g -> everywhere E (quiet_node E) (seql g GEof).
Proof. apply ev_eof; exact I. Qed.
Lemma completable_eof A (g : gram A) :
  everywhere E (completable_node E) g -> everywhere E (completable_node E) (seql g GEof).
Proof. apply ev_eof; [|exact I]. exists [], tt. constructor. Qed.
Lemma wf_eof A (g : gram A) : wf g -> wf (seql g GEof).
Proof. intros H. repeat split; auto. Qed.
Lemma sent_eof A (g : gram A) w v : sentence E (seql g GEof) w v <-> sentence E g w v.
Proof.
  split; intros H.
  - apply sent_inv in H as (w1 & w2 & v1 & v2 & -> & -> & H1 & H2). apply sent_inv in H2. cbn in H2. subst w2.
    rewrite app_nil_r. exact H1.
  - rewrite <- (app_nil_r w). apply (se_seq E _ _ _ _ _ (fun l _ => l) w [] v tt); auto. constructor.
Qed.
Lemma viable_eof A (g : gram A) w : viable E (seql g GEof) w <-> viable E g w.
Proof. split; intros (w' & v & H); exists w', v; apply sent_eof; exact H. Qed.
Lemma lay_eof A (g : gram A) s locof : lay_ok E g s locof -> lay_ok E (seql g GEof) s locof.
Proof. intros [H|[H1 H2]]; [left|right]; auto. split; auto. repeat split; auto. Qed.
Lemma ll1_eof F A (g : gram A) : ll1 E F g (fun o => o = None) -> ll1 E F (seql g GEof) (fun o => o = None).
Proof.
  intros H. cbn. split; [|auto]. eapply ll1_mono; [|exact H]. intros o [Ho|[_ Ho]]; auto.
  destruct o as [t|]; [|destruct Ho]. destruct Ho as (w & v & Ho). apply sent_inv in Ho. discriminate.
Qed.
End Aux.

(** ** C46  A failed parse reports a position before which the input is the
    beginning of a valid one. *)
Theorem C46_valid_prefix :
  forall T V (E : env T V) n A (g : gram T V A) s mi get fmt locof r b errs,
  wf_env E -> wf g -> cohere get s locof -> lay_ok E g s locof ->
  everywhere E (completable_node E) g -> (exists w v, sentence E g w v) ->
  parse E n g s false mi get fmt = Ret r -> unwrap r b = Raises errs ->
  exists p e, errs = [e] /\ ei_loc e = locof p /\ p <= List.length s /\ viable E g (firstn p s).
Proof.
  intros T V E n A g s mi get fmt locof r b errs HE Hg Hco Hl Hc (w & v & Hv) H Hu.
  destruct (C43_plain_diagnostics T V E A g s mi get fmt locof b HE Hg Hco Hl) as (_ & D & _).
  destruct (proj1 (D errs) (ex_intro _ n (ex_intro _ r (conj H Hu)))) as (b' & l & X & HD & ->).
  apply diag_valid in HD; auto; [|lia]. destruct HD as (p & -> & H1 & H2 & H3 & _).
  exists p. eexists. split; [reflexivity|]. split; [reflexivity|]. split; [apply H1|].
  destruct p as [|p]; [exists w, v; exact Hv|].
  specialize (H3 ltac:(lia)). unfold slice in H3. rewrite Nat.sub_0_r in H3. exact H3.
Qed.
Print Assumptions C46_valid_prefix.

(** scannerless.parse: the reported position itself *)
Corollary C46_scannerless :
  forall V (E : env char V) n A (g : gram char V A) s r errs,
  wf_env E -> wf g -> everywhere E (completable_node E) g -> (exists w v, sentence E g w v) ->
  scannerless_parse E n g s false = Ret r -> unwrap r false = Raises errs ->
  exists p e, errs = [e] /\ loc_pos (ei_loc e) = Z.of_nat p /\ p <= List.length s /\ viable E g (firstn p s).
Proof.
  intros V E n A g s r errs HE Hg Hc Hs H Hu.
  destruct (C46_valid_prefix char V E n A g s 5 scannerless_get_loc linecol_fmt (true_loc s) r false errs HE Hg
    (scannerless_cohere s) (or_introl (scannerless_exact s)) Hc Hs H Hu) as (p & e & -> & H1 & H2 & H3).
  exists p, e. split; [auto|]. split; [|auto]. rewrite H1. apply (scannerless_exact s); auto.
Qed.
Print Assumptions C46_scannerless.

(** ** C47  For an LL(1) grammar the parser accepts exactly the language. *)
Lemma ll1_outcome T V (E : env T V) A (g : gram T V A) s at_ v o :
  wf_env E -> wf g -> everywhere E (completable_node E) g -> LL1 E g -> sentence E g s v ->
  diag E s at_ A (seql g GEof) 0 0 o -> (exists X, o = DSucc v (List.length s) X) \/ exists e, o = DExn e.
Proof.
  intros HE Hg Hc (F & HL & HF) Hv Hd.
  apply (ll1_reads E HE F HF s at_ A (seql g GEof) 0 0 o Hd (wf_eof _ _ Hg) ltac:(lia) (completable_eof _ _ _ Hc)
    _ s [] v (ll1_eof _ _ _ _ HL)); auto.
  - simpl. symmetry. apply app_nil_r.
  - apply sent_eof. exact Hv.
Qed.

Theorem C47_ll1_accepts_the_language :
  forall T V (E : env T V) n A (g : gram T V A) s rec mi get fmt locof r,
  wf_env E -> wf g -> cohere get s locof -> lay_ok E g s locof ->
  everywhere E (completable_node E) g -> LL1 E g ->
  parse E n (seql g GEof) s rec mi get fmt = Ret r ->
  forall v, unwrap r false = Returns v <-> sentence E g s v.
Proof.
  intros T V E n A g s rec mi get fmt locof r HE Hg Hco Hl Hc HL H v.
  assert (Hp : exists r0, parse E n (seql g GEof) s false mi get fmt = Ret r0 /\
    forall v, unwrap r0 false = Returns v <-> unwrap r false = Returns v).
  { destruct rec; [|exists r; split; [auto|tauto]].
    destruct (recover_only_finishes _ _ _ _ _ _ mi _ _ _ H) as [r0 H0].
    exists r0. split; auto. intros u. pose proof (C01_recovery_transparent T V E n A (seql g GEof) s mi mi get fmt u) as C.
    split; intros Hu.
    - destruct (proj1 C) as (r1 & K1 & K2); [eauto|]. congruence.
    - destruct (proj2 C) as (r1 & K1 & K2); [eauto|]. congruence. }
  destruct Hp as (r0 & H0 & Hr). rewrite <- Hr. clear r rec H Hr. split.
  - intros Hu. assert (Hu' : unwrap r0 true = Returns v).
    { unfold unwrap in *. destruct (pr_result r0) as [o|e|rc]; auto. destruct (rc_reps rc); discriminate. }
    apply sent_eof.
    destruct (C09_eof_value _ _ _ _ _ _ _ _ _ _ _ _ _ HE Hg H0 Hu') as [Hs|(errs & es & K & _)]; auto.
    congruence.
  - intros Hs.
    destruct (C43_plain_diagnostics T V E A (seql g GEof) s mi get fmt locof false HE (wf_eof _ _ Hg) Hco
      (lay_eof _ _ _ _ _ Hl)) as (D1 & D2 & _).
    destruct (unwrap r0 false) as [u|errs] eqn:Hu.
    + destruct (proj1 (D1 u)) as (j & X & HD); [eauto|].
      destruct (ll1_outcome _ _ _ _ _ _ _ _ _ HE Hg Hc HL Hs HD) as [[Y HY]|[e HY]]; [|discriminate].
      injection HY as -> _ _. reflexivity.
    + destruct (proj1 (D2 errs)) as (b & l & X & HD & _); [eauto|].
      destruct (ll1_outcome _ _ _ _ _ _ _ _ _ HE Hg Hc HL Hs HD) as [[Y HY]|[e HY]]; discriminate.
Qed.
Print Assumptions C47_ll1_accepts_the_language.

(** ... and it always answers, if moreover the grammar is total (C39) *)
Theorem C47_ll1_decides :
  forall T V (E : env T V) A (g : gram T V A) s rec mi get fmt locof,
  wf_env E -> wf g -> cohere get s locof -> lay_ok E g s locof ->
  everywhere E (completable_node E) g -> LL1 E g ->
  everywhere E (quiet_node E) g -> guarded E g -> (0 <= mi)%Z ->
  exists n r, parse E n (seql g GEof) s rec mi get fmt = Ret r /\
    forall v, unwrap r false = Returns v <-> sentence E g s v.
Proof.
  intros T V E A g s rec mi get fmt locof HE Hg Hco Hl Hc HL Hq Hgd Hm.
  destruct (C39_total T V E A (seql g GEof) s rec mi get fmt HE (wf_eof _ _ Hg) (quiet_eof _ _ _ Hq)
    (guarded_eof _ _ _ Hgd) Hm) as (n & r & H).
  exists n, r. split; auto. eapply C47_ll1_accepts_the_language; eauto.
Qed.
Print Assumptions C47_ll1_decides.

(** so an LL(1) grammar is unambiguous, values included *)
Theorem C47_unambiguous :
  forall T V (E : env T V) A (g : gram T V A) s v v',
  wf_env E -> wf g -> everywhere E (completable_node E) g -> LL1 E g ->
  everywhere E (quiet_node E) g -> guarded E g ->
  sentence E g s v -> sentence E g s v' -> v = v'.
Proof.
  intros T V E A g s v v' HE Hg Hc HL Hq Hgd H H'.
  destruct (C47_ll1_decides T V E A g s false 0%Z default_get_loc default_fmt_loc default_locof HE Hg
    (default_cohere s) (or_introl (default_exact s)) Hc HL Hq Hgd ltac:(lia)) as (n & r & _ & K).
  apply K in H, H'. congruence.
Qed.
Print Assumptions C47_unambiguous.

(** ** C48  Performing the reported repair gives an input that is accepted,
    with the recovered value. *)
Theorem C48_repaired_input_accepted :
  forall T V (E : env T V) n A (g : gram T V A) s mi get fmt locof r v errs,
  wf_env E -> wf g -> cohere get s locof -> lay_ok E g s locof ->
  everywhere E (completable_node E) g -> LL1 E g -> everywhere E (quiet_node E) g -> guarded E g ->
  parse E n (seql g GEof) s true mi get fmt = Ret r ->
  unwrap r true = Returns v -> unwrap r false = Raises errs ->
  exists es, edits_in es = s /\ Forall2 (reports locof fmt) errs (edits_ops 0 es) /\
    edits_from E (seql g GEof) es /\
    forall t, edits_out es = map inl t ->
    forall rec mi' get' fmt' locof', cohere get' t locof' -> lay_ok E g t locof' -> (0 <= mi')%Z ->
    exists n' r', parse E n' (seql g GEof) t rec mi' get' fmt' = Ret r' /\ unwrap r' false = Returns v.
Proof.
  intros T V E n A g s mi get fmt locof r v errs HE Hg Hco Hl Hc HL Hq Hgd H Hv He.
  pose proof (parse_eof_ends _ _ _ _ _ _ _ _ _ _ H) as Hend.
  destruct (unwrap_repair _ _ _ _ _ _ _ _ _ _ _ H Hv He) as (rc & rep & Hr & Hin & -> & ->).
  rewrite Hr in Hend. simpl in Hend. specialize (Hend _ Hin).
  destruct (repair_script_loc _ _ _ _ _ _ _ _ _ _ _ _ HE (wf_eof _ _ Hg) Hco (lay_eof _ _ _ _ _ Hl) H Hr Hin)
    as (es & H1 & H2 & H3 & H4 & H5 & H6 & H7).
  exists es. split; [|split; [auto|split; [auto|]]].
  - rewrite H1, Hend. unfold slice. rewrite Nat.sub_0_r. apply firstn_all.
  - intros t Ht rec mi' get' fmt' locof' Hco' Hl' Hm'.
    destruct (C47_ll1_decides T V E A g t rec mi' get' fmt' locof' HE Hg Hco' Hl' Hc HL Hq Hgd Hm')
      as (n' & r' & K1 & K2).
    exists n', r'. split; auto. apply K2. apply sent_eof. unfold sentence. rewrite <- Ht. assumption.
Qed.
Print Assumptions C48_repaired_input_accepted.

(** without [recover_with] every repair inserts tokens only, so the repaired
    input always is a list of tokens *)
Lemma with_free_out T V (E : env T V) A (g : gram T V A) es :
  with_free E g -> edits_from E g es -> exists t, edits_out es = map inl t.
Proof.
  intros Hw. induction es as [|e es IH]; intros Hf; [exists []; reflexivity|].
  destruct IH as [t Ht]. { intros l w Hin. apply Hf. right. exact Hin. }
  assert (He : exists u, edit_out e = map inl u).
  { destruct e as [x|ts|l w]; simpl; [exists [x]; reflexivity|exists []; reflexivity|].
    destruct (Hf l w (or_introl eq_refl)) as (B & q & Ho & Hi). specialize (Hw B q Ho).
    destruct q; simpl in *; try tauto.
    - destruct Hi as [_ ->]. eexists [_]. reflexivity.
    - destruct Hi as [_ ->]. eexists. reflexivity. }
  destruct He as [u Hu]. exists (u ++ t). rewrite map_app, <- Hu, <- Ht. reflexivity.
Qed.
Theorem C48_token_repairs_accepted :
  forall T V (E : env T V) n A (g : gram T V A) s mi get fmt locof r v errs,
  wf_env E -> wf g -> cohere get s locof -> lay_ok E g s locof ->
  everywhere E (completable_node E) g -> LL1 E g -> everywhere E (quiet_node E) g -> guarded E g ->
  with_free E g ->
  parse E n (seql g GEof) s true mi get fmt = Ret r ->
  unwrap r true = Returns v -> unwrap r false = Raises errs ->
  exists es t, edits_in es = s /\ edits_out es = map inl t /\
    Forall2 (reports locof fmt) errs (edits_ops 0 es) /\
    forall rec mi' fmt', (0 <= mi')%Z ->
    exists n' r', parse E n' (seql g GEof) t rec mi' default_get_loc fmt' = Ret r' /\
      unwrap r' false = Returns v.
Proof.
  intros T V E n A g s mi get fmt locof r v errs HE Hg Hco Hl Hc HL Hq Hgd Hwf H Hv He.
  destruct (C48_repaired_input_accepted _ _ _ _ _ _ _ _ _ _ _ _ _ _ HE Hg Hco Hl Hc HL Hq Hgd H Hv He)
    as (es & H1 & H2 & H3 & H4).
  assert (Hw' : with_free E (seql g GEof)) by (apply ev_eof; auto; simpl; tauto).
  destruct (with_free_out _ _ _ _ _ _ Hw' H3) as [t Ht].
  exists es, t. split; [auto|]. split; [auto|]. split; [auto|]. intros rec mi' fmt' Hm.
  eapply H4; eauto; [apply default_cohere|left; apply default_exact].
Qed.
Print Assumptions C48_token_repairs_accepted.

(** ** C49  With one token of lookahead, the reported position is exactly where
    the input stops being the beginning of a sentence. *)
Theorem C49_exact_position :
  forall T V (E : env T V) n A (g : gram T V A) s mi get fmt locof r b errs,
  wf_env E -> wf g -> cohere get s locof -> lay_ok E g s locof ->
  everywhere E (completable_node E) g -> (exists w v, sentence E g w v) -> LL1 E g ->
  everywhere E next_token_node g -> everywhere E (fun B q => ~ is_layout B q) g ->
  parse E n (seql g GEof) s false mi get fmt = Ret r -> unwrap r b = Raises errs ->
  exists p e, errs = [e] /\ ei_loc e = locof p /\ p <= List.length s /\
    viable E g (firstn p s) /\
    (p < List.length s -> ~ viable E g (firstn (p + 1) s)) /\
    (p = List.length s -> forall v, ~ sentence E g s v).
Proof.
  intros T V E n A g s mi get fmt locof r b errs HE Hg Hco Hl Hc (w & v & Hv) HL H1 Hnl H Hu.
  destruct (C43_plain_diagnostics T V E A (seql g GEof) s mi get fmt locof b HE (wf_eof _ _ Hg) Hco
    (lay_eof _ _ _ _ _ Hl)) as (_ & D & _).
  destruct (proj1 (D errs) (ex_intro _ n (ex_intro _ r (conj H Hu)))) as (b' & l & X & HD & ->).
  assert (Hno : forall v, ~ sentence E g s v).
  { intros u Hs. destruct (ll1_outcome _ _ _ _ _ _ _ _ _ HE Hg Hc HL Hs HD) as [[Y HY]|[e HY]]; discriminate. }
  apply diag_valid in HD; auto; [|apply wf_eof; auto|lia|apply completable_eof; auto].
  destruct HD as (p & -> & K1 & K2 & K3 & K4).
  exists p. eexists. split; [reflexivity|]. split; [reflexivity|]. split; [apply K1|]. split; [|split].
  - destruct p as [|p]; [exists w, v; exact Hv|].
    specialize (K3 ltac:(lia)). unfold slice in K3. rewrite Nat.sub_0_r in K3. exact (proj1 (viable_eof _ _ _ _) K3).
  - intros Hp (w' & u & Hs). destruct K4 as [_ K4].
    { split; apply ev_eof; simpl; auto. }
    set (s' := firstn (p + 1) s ++ w') in *.
    assert (Hd : diag E s' default_locof A (seql g GEof) 0 0 (DFail b' (default_locof p) X)).
    { apply K4. intros k Hk. unfold s'. rewrite nth_error_app1 by (rewrite firstn_length; lia).
      clear - Hk. revert s k Hk. induction p as [|p IH]; intros [|x s] k Hk; simpl; auto.
      - assert (k = 0) as -> by lia. reflexivity.
      - destruct k; simpl; auto. apply IH. lia. }
    destruct (ll1_outcome _ _ _ _ _ _ _ _ _ HE Hg Hc HL Hs Hd) as [[Y HY]|[e HY]]; discriminate.
  - auto.
Qed.
Print Assumptions C49_exact_position.

(** the same position is that of the first error reported with recovery *)
Lemma plain_fails T V (E : env T V) n A (g : gram T V A) s mi mi' get fmt r' errs :
  parse E n g s true mi' get fmt = Ret r' -> unwrap r' false = Raises errs ->
  exists r e, parse E n g s false mi get fmt = Ret r /\ unwrap r false = Raises e.
Proof.
  intros H Hu. destruct (recover_only_finishes _ _ _ _ _ _ mi _ _ _ H) as [r Hr].
  destruct (unwrap r false) as [v|e] eqn:Hv; [|eauto].
  destruct (proj1 (C01_recovery_transparent T V E n A g s mi mi' get fmt v)) as (r1 & K1 & K2); [eauto|].
  congruence.
Qed.
Theorem C49_exact_position_recovering :
  forall T V (E : env T V) n A (g : gram T V A) s mi get fmt locof r errs,
  wf_env E -> wf g -> cohere get s locof -> lay_ok E g s locof ->
  everywhere E (completable_node E) g -> (exists w v, sentence E g w v) -> LL1 E g ->
  everywhere E next_token_node g -> everywhere E (fun B q => ~ is_layout B q) g ->
  single_withs E g ->
  parse E n (seql g GEof) s true mi get fmt = Ret r -> unwrap r false = Raises errs ->
  exists p e tl, errs = e :: tl /\ ei_loc e = locof p /\ p <= List.length s /\
    viable E g (firstn p s) /\
    (p < List.length s -> ~ viable E g (firstn (p + 1) s)) /\
    (p = List.length s -> forall v, ~ sentence E g s v).
Proof.
  intros T V E n A g s mi get fmt locof r errs HE Hg Hco Hl Hc Hs HL H1 Hnl Hsw H Hu.
  destruct (plain_fails _ _ _ _ _ _ _ mi _ _ _ _ _ H Hu) as (r0 & e0 & H0 & Hu0).
  destruct (C49_exact_position _ _ _ _ _ _ _ _ _ _ _ _ _ _ HE Hg Hco Hl Hc Hs HL H1 Hnl H0 Hu0)
    as (p & e & -> & K1 & K2).
  assert (Ha : attempt_free E (seql g GEof)).
  { apply ev_eof; simpl; try tauto. intros B q Ho Hq. specialize (H1 B q Ho). destruct q; simpl in *; tauto. }
  assert (Hsw' : single_withs E (seql g GEof)) by (apply ev_eof; simpl; auto).
  destruct (C12_first_error _ _ _ _ _ _ _ _ _ _ _ _ _ _ _ _ HE (wf_eof _ _ Hg) Hco (lay_eof _ _ _ _ _ Hl) Ha Hsw' H0 Hu0 H)
    as (x0 & x1 & tl & Hx & Hx1 & L1 & _).
  injection Hx as <-. rewrite Hu in Hx1. injection Hx1 as ->.
  exists p, x1, tl. split; [auto|]. split; [congruence|exact K2].
Qed.
Print Assumptions C49_exact_position_recovering.

(** ** The expression grammar meets the hypotheses *)
Lemma ex_sym_sent a w v : sentence ex_E (ex_sym a) w v -> w = [ex_ch a] /\ v = ex_ch a.
Proof.
  intros H. apply sent_inv in H as [-> H]. apply N.eqb_eq in H as ->. auto.
Qed.
Lemma ex_digit_sent w v : sentence ex_E ex_digit w v -> exists t, w = [t] /\ (48 <= t <= 57)%N.
Proof.
  intros H. apply sent_inv in H as (t & H & _). apply sent_inv in H. apply sent_inv in H as [-> H].
  exists t. split; auto. injection H as H. apply andb_true_iff in H as [H1 H2].
  apply N.leb_le in H1, H2. auto.
Qed.
Lemma ex_paren_sent w v : sentence ex_E ex_paren w v -> exists w', w = ex_ch "(" :: w'.
Proof.
  intros H. apply sent_inv in H as (w1 & w2 & v1 & v2 & -> & _ & H & _).
  apply ex_sym_sent in H as [-> _]. eexists. reflexivity.
Qed.
Lemma ex_item_sent w v : sentence ex_E (seq ex_plus ex_value) w v -> exists w', w = ex_ch "+" :: w'.
Proof.
  intros H. apply sent_inv in H as (w1 & w2 & v1 & v2 & -> & _ & H & _).
  apply sent_inv in H as (w3 & w4 & v3 & v4 & -> & _ & H & _).
  apply ex_sym_sent in H as [-> _]. eexists. reflexivity.
Qed.
Lemma ex_one : sentence ex_E ex_value (ex_str "1") 1%Z.
Proof.
  apply la_with, la_alt_l. eapply la_fmap; [apply la_label, la_sat; reflexivity|reflexivity].
Qed.
Lemma ex_one_expr : sentence ex_E (GDelay 0) (ex_str "1") 1%Z.
Proof.
  apply la_delay. eapply la_fmap.
  - apply (se_seq ex_E _ _ _ ex_value (GMany (seq ex_plus ex_value)) (fun l r => (l, r)) (ex_str "1") [] 1%Z []);
      [apply ex_one|constructor].
  - reflexivity.
Qed.
Lemma ex_completable : everywhere ex_E (completable_node ex_E) (GDelay 0).
Proof.
  apply everywhere_gall; [intros d|exact (conj I I)].
  assert (Hv : gall (completable_node ex_E) ex_value).
  { split; [exact I|]. split; [exact I|]. split.
    - split; [|repeat split]. intros w v _. eexists. reflexivity.
    - split; [exists (ex_str "1" ++ ex_str ")"), 1%Z;
        apply (se_seq ex_E _ _ _ (GDelay 0) (ex_sym ")") (fun l _ => l) _ _ 1%Z (ex_ch ")"));
        [apply ex_one_expr|constructor; reflexivity]|].
      split; [repeat split|]. split; [|split; repeat split].
      exists (ex_str ")"), (ex_ch ")"). constructor. reflexivity. }
  split; [|split; [exists [], []; constructor|split; [exact Hv|split; [exact I|split]]]].
  - intros w v H. apply (ex_quiet _ _ (oc_seq_l _ _ _ _ _ _ _ _ (oc_delay _ _ _ (oc_refl _ _)))) with (w := map inl w).
    exact H.
  - exists (ex_str "1"), 1%Z. apply ex_one.
  - split; [|exact Hv]. split; [|split; repeat split].
    exists [], (fun x y => Ret (x + y)%Z). constructor.
Qed.
Definition ex_follow (d : nat) (o : option char) : Prop := o = None \/ o = Some (ex_ch ")").
Lemma ex_value_ll1 K : ll1 ex_E ex_follow ex_value K.
Proof.
  cbn. split; [exact I|]. split; [split; [exact I|split; [|exact I]]|split].
  - intros o [Ho|[[v Hn] _]]; [|apply ex_sym_sent in Hn as [Hn _]; discriminate].
    destruct o as [t|]; [|destruct Ho]. destruct Ho as (w & v & Ho). apply ex_sym_sent in Ho as [Ho _].
    injection Ho as -> _. right. reflexivity.
  - intros [v H]. apply ex_digit_sent in H as (t & H & _). discriminate.
  - intros o Hd [Hp|[[v Hn] _]]; [|apply ex_paren_sent in Hn as [w Hn]; discriminate].
    destruct o as [t|]; [|destruct Hp]. destruct Hd as (w & v & Hd), Hp as (w' & v' & Hp).
    apply ex_digit_sent in Hd as (t' & Hd & Hr). injection Hd as -> ->.
    apply ex_paren_sent in Hp as (w'' & Hp). injection Hp as -> ->. vm_compute in Hr. destruct Hr. congruence.
Qed.
Lemma ex_LL1 : LL1 ex_E (GDelay 0).
Proof.
  exists ex_follow. split; [cbn; intros o ->; left; reflexivity|]. intros d.
  split; [apply ex_value_ll1|]. split; [split; [split; exact I|apply ex_value_ll1]|]. split.
  - intros [v H]. apply ex_item_sent in H as [w H]. discriminate.
  - intros o Ho HF. destruct o as [t|]; [|destruct Ho]. destruct Ho as (w & v & Ho).
    apply ex_item_sent in Ho as (w' & Ho). injection Ho as -> ->. destruct HF; discriminate.
Qed.
Lemma ex_guarded0 : guarded ex_E (GDelay 0).
Proof. intros d H. apply ex_guarded. apply oc_seq_l. exact H. Qed.
Lemma ex_quiet0 : everywhere ex_E (quiet_node ex_E) (GDelay 0).
Proof. intros B q H. apply ex_quiet. apply oc_seq_l. exact H. Qed.

(** the parser of the example accepts exactly the language of expressions *)
Theorem C47_case : forall s v,
  (exists n r, scannerless_parse ex_E n ex_top s false = Ret r /\ unwrap r false = Returns v) <->
  sentence ex_E (GDelay 0) s v.
Proof.
  intros s v.
  destruct (C47_ll1_decides char ex_V ex_E Z (GDelay 0) s false 5 scannerless_get_loc linecol_fmt (true_loc s)
    ex_wf_E (conj I I) (scannerless_cohere s) (or_introl (scannerless_exact s)) ex_completable ex_LL1
    ex_quiet0 ex_guarded0 ltac:(lia)) as (n & r & H & K).
  split.
  - intros (n' & r' & H' & Hu). apply K.
    assert (P : parse ex_E n' (seql (GDelay 0) GEof) s false 5 scannerless_get_loc linecol_fmt
      = parse ex_E n (seql (GDelay 0) GEof) s false 5 scannerless_get_loc linecol_fmt).
    { apply parse_agree; intros P; [discriminate (eq_trans (eq_sym H') P)|discriminate (eq_trans (eq_sym H) P)]. }
    change (parse ex_E n' (seql (GDelay 0) GEof) s false 5 scannerless_get_loc linecol_fmt = Ret r') in H'.
    pose proof (eq_trans (eq_sym H') (eq_trans P H)) as Hr. injection Hr as ->. exact Hu.
  - intros Hs. exists n, r. split; [exact H|]. apply K. exact Hs.
Qed.
Print Assumptions C47_case.

Lemma one_next T V (E : env T V) A (g : gram T V A) :
  everywhere E one_token_node g -> everywhere E next_token_node g.
Proof. intros H B q Ho. specialize (H B q Ho). destruct q; simpl in *; tauto. Qed.
Lemma ex_one_token1 : everywhere ex_E one_token_node (GDelay 0).
Proof. apply everywhere_gall; [intros d|]; solve_gall. Qed.
Lemma ex_one_token : everywhere ex_E next_token_node (GDelay 0).
Proof. apply one_next, ex_one_token1. Qed.
Lemma ex_layout_free : everywhere ex_E (fun B q => ~ is_layout B q) (GDelay 0).
Proof. apply everywhere_gall; [intros d|]; solve_gall. Qed.

(** the position reported for an expression is exact *)
Theorem C49_case : forall s n r errs,
  scannerless_parse ex_E n ex_top s false = Ret r -> unwrap r false = Raises errs ->
  exists p e, errs = [e] /\ ei_loc e = true_loc s p /\ p <= List.length s /\
    viable ex_E (GDelay 0) (firstn p s) /\
    (p < List.length s -> ~ viable ex_E (GDelay 0) (firstn (p + 1) s)) /\
    (p = List.length s -> forall v, ~ sentence ex_E (GDelay 0) s v).
Proof.
  intros s n r errs H Hu.
  apply (C49_exact_position char ex_V ex_E n Z (GDelay 0) s 5 scannerless_get_loc linecol_fmt (true_loc s) r false errs
    ex_wf_E (conj I I) (scannerless_cohere s) (or_introl (scannerless_exact s)) ex_completable
    (ex_intro _ _ (ex_intro _ _ ex_one_expr)) ex_LL1 ex_one_token ex_layout_free H Hu).
Qed.
Print Assumptions C49_case.

(** "1+)2": reported at 2; "1+" can be continued, "1+)" cannot *)
Theorem C46_case :
  (exists r e, ex_parse "1+)2" false 5 = Ret r /\ unwrap r false = Raises [e] /\ loc_pos (ei_loc e) = 2%Z) /\
  viable ex_E (GDelay 0) (ex_str "1+") /\ ~ viable ex_E (GDelay 0) (ex_str "1+)").
Proof.
  assert (H : exists r e, ex_parse "1+)2" false 5 = Ret r /\ unwrap r false = Raises [e] /\ loc_pos (ei_loc e) = 2%Z).
  { do 2 eexists. split; [vm_compute; reflexivity|]. split; [vm_compute; reflexivity|]. vm_compute. reflexivity. }
  split; [exact H|]. destruct H as (r & e & H & Hu & Hl).
  destruct (C49_case _ _ _ _ H Hu) as (p & e' & He & Hp & Hle & H1 & H2 & _). injection He as <-.
  rewrite Hp in Hl. rewrite (proj2 (scannerless_exact (ex_str "1+)2")) p Hle) in Hl.
  assert (p = 2) as -> by lia. split; [exact H1|]. apply H2. vm_compute. lia.
Qed.
Print Assumptions C46_case.

(** "a1" is repaired by deleting the a and inserting a semicolon; "1;" is accepted *)
Definition ex_wfree : ex_gram Z := seql ex_digit (ex_sym ";").
Example C48_case :
  with_free lay_E ex_wfree /\ LL1 lay_E ex_wfree /\
  exists r errs r',
    scannerless_parse lay_E 9 (seql ex_wfree GEof) (ex_str "a1") true = Ret r /\
    unwrap r true = Returns 1%Z /\ unwrap r false = Raises errs /\
    map ei_op errs = [Some (Skip 1); Some (Insert "';'")] /\
    scannerless_parse lay_E 9 (seql ex_wfree GEof) (ex_str "1;") false = Ret r' /\
    unwrap r' false = Returns 1%Z.
Proof.
  split; [apply everywhere_gall; [intros d|]; solve_gall|].
  split; [exists (fun _ _ => False); split; [|intros d]; cbn; auto|].
  do 3 eexists. repeat (split; [vm_compute; reflexivity|]). vm_compute. reflexivity.
Qed.

(** Without the LL(1) condition: 'a' 'b' | 'a' 'c' does not accept its sentence
    "ac", and the repair of "xac" (delete x) is not accepted when performed. *)
Definition ll_abac : ex_gram char := GAlt (seqr (ex_sym "a") (ex_sym "b")) (seqr (ex_sym "a") (ex_sym "c")).
Theorem C47_needs_ll1 :
  sentence lay_E ll_abac (ex_str "ac") (ex_ch "c") /\
  exists r errs, scannerless_parse lay_E 9 (seql ll_abac GEof) (ex_str "ac") false = Ret r /\
    unwrap r false = Raises errs.
Proof.
  split.
  - apply la_alt_r. apply (se_seq lay_E _ _ _ (ex_sym "a") (ex_sym "c") (fun _ r => r) (ex_str "a") (ex_str "c") (ex_ch "a"));
      constructor; reflexivity.
  - do 2 eexists. split; vm_compute; reflexivity.
Qed.
Theorem C48_needs_ll1 :
  exists r errs, scannerless_parse lay_E 9 (seql ll_abac GEof) (ex_str "xac") true = Ret r /\
    unwrap r true = Returns (ex_ch "c") /\ unwrap r false = Raises errs /\ map ei_op errs = [Some (Skip 1)].
Proof. do 2 eexists. repeat (split; [vm_compute; reflexivity|]). vm_compute. reflexivity. Qed.

(** With [attempt] the reported position may be too early: 'c' | attempt('a' 'b')
    on "ax" is reported at 0, although "a" can be continued. *)
Definition ll_att : ex_gram char := GAlt (ex_sym "c") (GAttempt (seqr (ex_sym "a") (ex_sym "b"))).
Theorem C49_attempt_differs :
  viable lay_E ll_att (ex_str "a") /\
  exists r e, scannerless_parse lay_E 9 (seql ll_att GEof) (ex_str "ax") false = Ret r /\
    unwrap r false = Raises [e] /\ loc_pos (ei_loc e) = 0%Z.
Proof.
  split.
  - exists (ex_str "b"), (ex_ch "b"). apply la_alt_r, la_attempt.
    apply (se_seq lay_E _ _ _ (ex_sym "a") (ex_sym "b") (fun _ r => r) (ex_str "a") (ex_str "b") (ex_ch "a"));
      constructor; reflexivity.
  - do 2 eexists. repeat (split; [vm_compute; reflexivity|]). vm_compute. reflexivity.
Qed.
