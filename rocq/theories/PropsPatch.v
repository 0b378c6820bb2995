(** C51: with enough insertions allowed, recovery always ends with a value. *)
From Verif Require Export Patch PropsTotal ApiProofs.

(** If a parser [completes] within [k] insertions in a row and
    [max_insertions] affords them, then whatever the input, the result of
    [parse(..., recover=True)] unwraps to a value: it is never a bare error. *)
Theorem C51_recovery_completes :
  forall T V (E : env T V) A (g : gram T V A) s k m n get fmt r,
  wf_env E -> wf g -> completes E (List.length s) k g -> affords m k ->
  parse E n g s true m get fmt = Ret r ->
  exists v, unwrap r true = Returns v.
Proof.
  intros T V E A g s k m n get fmt r HE Hg (claim & Hc & Hf) Hm H.
  apply parse_full in H as [_ H].
  pose proof (fills_sound E s HE claim Hc n A g (List.length s) Firm k 0 (init_ctx get) m (Some m)
    (pr_result r) Hg (Nat.le_0_l _) ltac:(lia) Hf) as HO.
  assert (OB : okb Firm k m (Some m)).
  { split; [unfold affords in Hm; lia|]. intros m' Hm'. injection Hm' as <-. unfold affords in Hm.
    destruct Hm as [Hm|[H1 H2]]; [left; lia|right; split; [lia|right; exact H1]]. }
  specialize (HO OB H). unfold unwrap. destruct (pr_result r) as [o|e|rc].
  - eexists; reflexivity.
  - destruct HO as [_ [HO|[HO|HO]]]; discriminate.
  - destruct (rc_reps rc) as [|x l] eqn:R; [|eexists; reflexivity]. exfalso. simpl in HO.
    destruct HO as [(rep & Hin & _)|(_ & rep & _ & Hin & _)]; rewrite R in Hin; contradiction.
Qed.
Print Assumptions C51_recovery_completes.

(** ... and if moreover it is free of left recursion and of [many] over the
    empty word (C39), the call itself always comes back. *)
Theorem C51_total :
  forall T V (E : env T V) A (g : gram T V A) s k m get fmt,
  wf_env E -> wf g -> everywhere E (quiet_node E) g -> guarded E g -> (0 <= m)%Z ->
  completes E (List.length s) k g -> affords m k ->
  exists n r v, parse E n g s true m get fmt = Ret r /\ unwrap r true = Returns v.
Proof.
  intros T V E A g s k m get fmt HE Hg Hq Hgd H0 Hc Hm.
  destruct (C39_total T V E A g s true m get fmt HE Hg Hq Hgd H0) as (n & r & H).
  destruct (C51_recovery_completes T V E A g s k m n get fmt r HE Hg Hc Hm H) as (v & Hv). eauto.
Qed.
Print Assumptions C51_total.

(** *** The expression grammar: one insertion per open bracket and one value *)
Definition ex_need (n : nat) : need := Need 1 (n + 1).
Definition ex_claim (d n : nat) (l : level) (k : need) : Prop := l = Firm /\ k = ex_need n.


Ltac need := unfold need_le, need_seq, ex_need; cbn [now later]; lia.

Lemma ex_paren_fills n : fills ex_E ex_claim n Soft (Need 2 (n + 1)) ex_paren.
Proof.
  unfold ex_paren, between, seql, seqr, ex_sym. cbn [fills].
  destruct n as [|n'].
  - exists (Need 0 0), (Need 0 0). split; [need|]. split; [auto|]. split; [discriminate|].
    left. intros v. apply ex_sym_not_empty.
  - exists (Need 0 0), (Need 2 (n' + 2)). split; [need|]. split; [auto|].
    split; [|left; intros v; apply ex_sym_not_empty].
    intros n'' H. injection H as <-. exists (ex_need n'), (Need 1 0). split; [need|].
    split; [split; reflexivity|]. right. split; [discriminate|]. simpl; lia.
Qed.
Lemma ex_value_fills n l : fills ex_E ex_claim n l (ex_need n) ex_value.
Proof.
  unfold ex_value. cbn [fills]. split; [|right; need].
  exists (Need 2 (n + 1)). split; [need|]. exists (Need 0 0), (Need 2 (n + 1)).
  split; [need|]. split; [need|]. left. split; [auto|]. split; [simpl; auto|].
  split; [apply ex_paren_fills|]. apply everywhere_gall; [intros d|]; solve_gall.
Qed.
Lemma ex_plus_eats : eats ex_E ex_plus.
Proof.
  intros v H. apply lang_inv in H as (w1 & w2 & v1 & v2 & Hw & _ & H & _). apply app_nil_inv in Hw as [-> ->].
  eapply ex_sym_not_empty; eauto.
Qed.
Lemma ex_expr_fills n : fills ex_E ex_claim n Firm (ex_need n) ex_expr.
Proof.
  unfold ex_expr, chainl1, seq. cbn [fills].
  exists (ex_need n), (Need 0 (n + 1)). split; [need|]. split; [apply ex_value_fills|].
  exists (Need 1 (n + 1)). split; [need|]. cbn [fills]. destruct n as [|n'].
  - exists (Need 0 0), (Need 0 0). split; [need|]. split; [|split; [discriminate|]].
    + unfold ex_plus, seqr. cbn [fills]. exists (Need 0 0), (Need 0 0).
      split; [need|]. split; [left; auto|]. split; [auto|]. left. intros v. apply ex_sym_not_empty.
    + left. apply ex_plus_eats.
  - exists (Need 0 0), (ex_need n'). split; [need|]. split; [|split].
    + unfold ex_plus, seqr. cbn [fills]. exists (Need 0 0), (Need 0 0).
      split; [need|]. split; [left; auto|]. split; [auto|]. left. intros v. apply ex_sym_not_empty.
    + intros n'' H. injection H as <-. apply ex_value_fills.
    + left. apply ex_plus_eats.
Qed.
Lemma ex_completes n : completes ex_E n (ex_need n) ex_top.
Proof.
  exists ex_claim. split.
  - intros d n' l k [-> ->]. apply ex_expr_fills.
  - unfold ex_top, seql. cbn [fills]. exists (ex_need n), (Need 0 0). split; [need|]. split; [split; reflexivity|exact I].
Qed.

(** Every input, however broken, is parsed to a value by the expression
    grammar when [max_insertions] exceeds its length. *)
Theorem C51_case : forall s m get fmt, (Z.of_nat (List.length s) < m)%Z ->
  exists n r v, parse ex_E n ex_top s true m get fmt = Ret r /\ unwrap r true = Returns v.
Proof.
  intros s m get fmt Hm. eapply C51_total with (k := ex_need (List.length s)).
  - apply ex_wf_E.
  - apply ex_wf.
  - apply ex_quiet.
  - apply ex_guarded.
  - lia.
  - apply ex_completes.
  - right. unfold ex_need. cbn [now later]. lia.
Qed.
Print Assumptions C51_case.

(** The bound is needed and exact: "((((((" takes seven insertions (a value and
    six brackets). *)
Theorem C51_needs_budget :
  exists r e, ex_parse "((((((" true 6 = Ret r /\ unwrap r true = Raises e.
Proof. do 2 eexists. split; [vm_compute; reflexivity|]. vm_compute. reflexivity. Qed.
Example C51_enough :
  exists r, ex_parse "((((((" true 7 = Ret r /\ unwrap r true = Returns 0%Z.
Proof. eexists. split; [vm_compute; reflexivity|]. vm_compute. reflexivity. Qed.

(** Two tokens and the end, with the default of five insertions in a row. *)
Definition ex_pair : ex_gram (char * char) := seql (seq (ex_sym "a") (ex_sym "b")) GEof.
(** no Delay is used *)
Definition ex_pair_E : env char ex_V := fun _ => GPure 0%Z.
Theorem C51_default : forall s, exists n r v,
  scannerless_parse ex_pair_E n ex_pair s true = Ret r /\ unwrap r true = Returns v.
Proof.
  intros s. unfold scannerless_parse. eapply C51_total with (k := Need 2 2).
  - intros d. solve_gall.
  - solve_gall.
  - apply everywhere_gall; [intros d|]; solve_gall; eauto.
  - apply no_delay_guarded; solve_gall.
  - lia.
  - exists (fun _ _ _ _ => False). split; [intros d n l k []|]. unfold ex_pair, seql, seq. cbn [fills].
    exists (Need 2 2), (Need 0 0). split; [need|]. split; [|exact I].
    exists (Need 1 1), (Need 1 1). split; [need|]. split; right; (split; [discriminate|simpl; lia]).
  - right. simpl. lia.
Qed.
