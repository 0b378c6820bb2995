(** C45: allowing more insertions never makes recovery worse. *)
From Verif Require Import Mono Fuel ApiProofs PropsRecovery Examples.

Section PropsMono.
Context {T : Type} {V : nat -> Type}.
Variable E : env T V.

Lemma parse_rel n m A (g : gram T V A) s k k' get fmt r r' :
  not_both E g -> allows_more k k' ->
  parse E n g s true k get fmt = Ret r -> parse E m g s true k' get fmt = Ret r' ->
  crel (pr_result r) (pr_result r').
Proof.
  intros (um & am & Hx & Hg & HE) Hk H H'.
  apply parse_full in H as [_ H]. apply parse_full in H' as [_ H'].
  apply (full_mono E n (n + m)) in H; [|discriminate|lia].
  apply (full_mono E m (n + m)) in H'; [|discriminate|lia].
  eapply rrel_crel. eapply (main_rel E um am Hx HE (n + m)); [exact Hk|exact (Hk : lrem (Some k) (Some k'))|exact Hg|exact H|exact H'].
Qed.

Lemma sub_in {A} (l l' : list (repair T A)) : sub l l' -> forall x, In x l -> exists y, In y l' /\ lrep x y.
Proof.
  induction 1; cbn; intros x Hx; [destruct Hx| |].
  - destruct Hx as [<-|Hx]; [exists r'; auto|]. destruct (IHsub _ Hx) as (y & ? & ?). exists y. auto.
  - destruct (IHsub _ Hx) as (y & ? & ?). exists y. auto.
Qed.
Lemma lrep_same {A} (x y : repair T A) : lrep x y -> same_repair x y.
Proof. intros [_ ->]. repeat split. Qed.

Lemma errors_cost_ops fmt (ops : list opitem) : errors_cost (map (item_of_op fmt) ops) = ops_cost (map op_op ops).
Proof. induction ops as [|o ops IH]; cbn; auto. Qed.
End PropsMono.

(** ** C45  [r] is the result with [max_insertions=k], [r'] the one with a
    larger budget [k']; [not_both] excludes only parsers that use both
    [attempt] and [recover_with].  Every repair offered with [k] is offered
    with [k']. *)
Theorem C45_more_repairs :
  forall T V (E : env T V) n m A (g : gram T V A) s k k' get fmt r r' rc rep,
  not_both E g -> allows_more k k' ->
  parse E n g s true k get fmt = Ret r -> parse E m g s true k' get fmt = Ret r' ->
  pr_result r = RRec rc -> In rep (rc_reps rc) ->
  exists rc' rep', pr_result r' = RRec rc' /\ In rep' (rc_reps rc') /\ same_repair rep rep'.
Proof.
  intros T V E n m A g s k k' get fmt r r' rc rep Hb Hk H H' Hr Hin.
  pose proof (parse_rel E n m A g s k k' get fmt r r' Hb Hk H H') as R. rewrite Hr in R.
  destruct (pr_result r') as [o|e|rc']; cbn in R; try contradiction.
  destruct (sub_in _ _ R _ Hin) as (y & Hy & L). exists rc', y. repeat split; auto; apply lrep_same; auto.
Qed.
Print Assumptions C45_more_repairs.

(** whatever recovers with [k] recovers with [k'], and the errors reported
    with [k'] stand for at most as many skipped and inserted tokens *)
Theorem C45_recovers_no_worse :
  forall T V (E : env T V) n m A (g : gram T V A) s k k' get fmt r r' v,
  not_both E g -> allows_more k k' ->
  parse E n g s true k get fmt = Ret r -> parse E m g s true k' get fmt = Ret r' ->
  unwrap r true = Returns v ->
  exists v', unwrap r' true = Returns v' /\
    forall errs, unwrap r false = Raises errs ->
    exists errs', unwrap r' false = Raises errs' /\ errors_cost errs' <= errors_cost errs.
Proof.
  intros T V E n m A g s k k' get fmt r r' v Hb Hk H H' Hv.
  pose proof (parse_rel E n m A g s k k' get fmt r r' Hb Hk H H') as R.
  destruct (pr_result r) as [o|e|rc] eqn:Hr.
  - destruct (pr_result r') as [o'|e'|rc'] eqn:Hr'; cbn in R; try contradiction. subst o'.
    unfold unwrap. rewrite Hr, Hr'. exists (ok_val o). split; auto. intros errs Q. discriminate.
  - unfold unwrap in Hv. rewrite Hr in Hv. discriminate.
  - destruct (pr_result r') as [o'|e'|rc'] eqn:Hr'; cbn in R; try contradiction.
    assert (Hne : rc_reps rc <> []).
    { unfold unwrap in Hv. rewrite Hr in Hv. intros Q. rewrite Q in Hv. discriminate. }
    assert (Hne' : rc_reps rc' <> []).
    { destruct (rc_reps rc) as [|x l]; [contradiction|].
      destruct (sub_in _ _ R x (or_introl eq_refl)) as (y & Hy & _). intros Q. rewrite Q in Hy. destruct Hy. }
    destruct (unwrap_best _ _ _ _ _ _ _ _ _ _ H Hr Hne) as (x & (l1 & l2 & Hl & B1 & B2) & U1 & U2).
    destruct (unwrap_best _ _ _ _ _ _ _ _ _ _ H' Hr' Hne') as (x' & (l1' & l2' & Hl' & B1' & B2') & U1' & U2').
    exists (r_val x'). split; auto. intros errs He. rewrite U2 in He. injection He as <-.
    eexists. split; [exact U2'|]. rewrite !errors_cost_ops.
    destruct (sub_in _ _ R x) as (y & Hy & L); [rewrite Hl; apply in_or_app; right; left; auto|].
    assert (C : reported_cost y = reported_cost x) by (destruct L as [_ ->]; reflexivity).
    change (reported_cost x' <= reported_cost x). rewrite <- C.
    rewrite Hl' in Hy. apply in_app_or in Hy as [Hy|[<-|Hy]]; auto.
    + destruct (B1' _ Hy) as [P|[P _]]; lia.
    + destruct (le_lt_dec (reported_cost x') (reported_cost y)); auto.
      destruct (B2' _ Hy). left. auto.
Qed.
Print Assumptions C45_recovers_no_worse.

(** in particular the unlimited budget is the best one, and [k = 0] (only
    skipping) the worst *)
Theorem C45_unlimited_best :
  forall T V (E : env T V) n m A (g : gram T V A) s k get fmt r r' v errs,
  not_both E g ->
  parse E n g s true k get fmt = Ret r -> parse E m g s true (-1) get fmt = Ret r' ->
  unwrap r true = Returns v -> unwrap r false = Raises errs ->
  exists v' errs', unwrap r' true = Returns v' /\ unwrap r' false = Raises errs' /\
    errors_cost errs' <= errors_cost errs.
Proof.
  intros T V E n m A g s k get fmt r r' v errs Hb H H' Hv He.
  destruct (C45_recovers_no_worse _ _ _ _ _ _ _ _ _ _ _ _ _ _ _ Hb
    (or_introl eq_refl : allows_more k (-1)) H H' Hv) as (v' & V1 & V2).
  destruct (V2 _ He) as (errs' & W1 & W2). eauto.
Qed.
Print Assumptions C45_unlimited_best.

(** The expression grammar of the examples meets the hypotheses (it uses
    [recover_with] only). *)
Lemma ex_not_both : not_both ex_E ex_top.
Proof.
  exists true, false. split; [reflexivity|]. split; [|intros d].
  all: unfold uses; solve_gall.
Qed.
(** and a parser with [attempt], for which the larger budget pays off: skipping
    three tokens with budget 0, two insertions with an unlimited budget *)
Definition C45_env : env char ex_V := fun _ => GPure 0%Z.
Definition C45_gram : ex_gram char := seqr (ex_sym "b") (GAttempt (ex_sym "c")).
Notation C45_pick k := (parse C45_env 9 C45_gram (ex_str "aaabc") true k default_get_loc default_fmt_loc).
Lemma C45_gram_not_both : not_both C45_env C45_gram.
Proof.
  exists false, true. split; [reflexivity|]. split; [|intros d].
  all: unfold uses; solve_gall.
Qed.
Example C45_case :
  (not_both ex_E ex_top /\ allows_more 1 5 /\
   exists r r' v e, ex_parse "1+(2" true 1 = Ret r /\ ex_parse "1+(2" true 5 = Ret r' /\
     unwrap r true = Returns v /\ unwrap r false = Raises e) /\
  (not_both C45_env C45_gram /\ allows_more 0 (-1) /\
   exists r r' v e e', C45_pick 0%Z = Ret r /\ C45_pick (-1)%Z = Ret r' /\
     unwrap r true = Returns v /\ unwrap r false = Raises e /\ unwrap r' false = Raises e' /\
     errors_cost e = 3 /\ errors_cost e' = 2).
Proof.
  split; split.
  - exact ex_not_both.
  - split; [unfold allows_more; lia|]. do 4 eexists. repeat (split; [vm_compute; reflexivity|]); vm_compute; reflexivity.
  - exact C45_gram_not_both.
  - split; [unfold allows_more; lia|]. do 5 eexists. repeat (split; [vm_compute; reflexivity|]); vm_compute; reflexivity.
Qed.

(** Some inputs are repaired only with the larger budget. *)
Example C45_needs_more :
  (exists r r' v e, ex_parse "((1" true 1 = Ret r /\ ex_parse "((1" true 2 = Ret r' /\
     unwrap r true = Raises e /\ unwrap r' true = Returns v).
Proof. do 4 eexists. repeat (split; [vm_compute; reflexivity|]); vm_compute; reflexivity. Qed.

(** [not_both] is needed: in a parser with [attempt] and [recover_with] a
    larger budget can give more expensive errors.  On "a" the parser of
    [t (satisfy(x).recover_with(X) | attempt(a b)) eof] reports cost 2 with
    [max_insertions=1] (insert t, then insert b after a) and cost 3 with
    [max_insertions=2]: once [recover_with] may insert, its repair heads the
    list and the cheaper ones of the second alternative, which start with an
    automatic insertion, are dropped. *)
Theorem C45_not_both_needed :
  exists (E : env char ex_V) (g : ex_gram char) s r r' v v' e e',
  ~ not_both E g /\ allows_more 1 2 /\
  parse E 30 g s true 1 default_get_loc default_fmt_loc = Ret r /\
  parse E 30 g s true 2 default_get_loc default_fmt_loc = Ret r' /\
  unwrap r true = Returns v /\ unwrap r' true = Returns v' /\
  unwrap r false = Raises e /\ unwrap r' false = Raises e' /\
  errors_cost e = 2 /\ errors_cost e' = 3.
Proof.
  exists C45_env, (seqr (ex_sym "t") (seql (GAlt
    (GRecoverWith (GSatisfy (fun x => Ret (N.eqb x (ex_ch "x")))) (ex_ch "x") "X")
    (GAttempt (seqr (ex_sym "a") (ex_sym "b")))) GEof)), (ex_str "a").
  do 6 eexists. split.
  { intros (um & am & H1 & H2 & _). unfold uses in H2. simpl in H2.
    destruct um, am; try discriminate; decompose [and] H2; discriminate. }
  split; [unfold allows_more; lia|].
  repeat (split; [vm_compute; reflexivity|]); vm_compute; reflexivity.
Qed.
Print Assumptions C45_not_both_needed.
