(** Property C74: the reported repair is the best of all ways of mending the
    input (MendSpec.v). *)
From Verif Require Import ApiSpec ApiProofs Locations PropsPeg PropsRec PropsRecovery FirstSpec First PropsFirst LL PropsLL Examples Mend.
Import ListNotations.

Section C74.
Context {T : Type} {V : nat -> Type} (E : env T V) {A : Type} (g : gram T V A).
Variables (s : list T) (get : loc -> list T -> nat -> loc) (locof : nat -> loc).
Hypotheses (HE : wf_env E) (Hg : wf g) (Hco : cohere get s locof) (Hl : lay_ok E g s locof).
Lemma mend_iff i c ins rem n r : i <= List.length s -> pos_Cok (T:=T) get locof i c ->
  full E n g s i c ins rem = Ret r ->
  forall y, mend E s locof A g (ctx_mark c) i ins rem y <-> offers r y.
Proof using HE Hg Hco Hl.
  destruct (lay_gok _ _ _ _ _ HE Hg Hl) as [G1 G2]. intros Hi Hc HF y. split.
  - intros H. apply (mend_offered E s get locof _ Hco (fun x => x) G2 A g _ i ins rem y H G1 Hi n c r Hc eq_refl HF).
  - intros (rc & rep & -> & Hin & L1 & L2 & L3 & L4 & L5 & L6).
    pose proof (mend_only E s get locof _ Hco (fun x => x) G2 n A g i c ins rem _ G1 Hi Hc HF rc rep eq_refl Hin) as K.
    replace y with (yof rep); auto. unfold yof. rewrite L1, L2, L3, L4, L5, L6. destruct y as [a [] b d e f]; reflexivity.
Qed.
End C74.

(** ** Every outcome of a parse with recovery, by its repairs alone *)
Theorem C74_best_mend :
  forall T V (E : env T V) n A (g : gram T V A) s mi get fmt locof r,
  wf_env E -> wf g -> cohere get s locof -> lay_ok E g s locof ->
  parse E n g s true mi get fmt = Ret r ->
  let mends := mend E s locof A g 0 0 mi (Some mi) in
  (forall v, unwrap r false = Returns v -> forall y, ~ mends y) /\
  (forall errs, unwrap r false = Raises errs ->
     (exists e, errs = [e] /\ ei_op e = None /\ unwrap r true = Raises errs /\ forall y, ~ mends y) \/
     (exists y, mends y /\ unwrap r true = Returns (y_val y) /\ y_reported fmt y errs /\
        forall y', mends y' -> ~ y_better y' y)).
Proof.
  intros T V E n A g s mi get fmt locof r HE Hg Hco Hl H mends.
  pose proof (proj1 (parse_full _ _ _ _ _ _ _ _ _) H) as [Hf HF].
  pose proof (mend_iff E g s get locof HE Hg Hco Hl 0 (init_ctx get) mi (Some mi) n _ ltac:(lia) (pos_init _ _) HF) as K.
  cbn [ctx_mark init_ctx] in K. fold mends in K.
  destruct (pr_result r) as [o|e|rc] eqn:Hr.
  - split; [|unfold unwrap; rewrite Hr; discriminate].
    intros v _ y Hy. apply K in Hy as (? & ? & K' & _). discriminate.
  - split; [unfold unwrap; rewrite Hr; discriminate|]. intros errs He. left.
    unfold unwrap in *. rewrite Hr in *. injection He as <-. eexists. split; [reflexivity|]. split; [reflexivity|]. split; [reflexivity|].
    intros y Hy. apply K in Hy as (? & ? & K' & _). discriminate.
  - split; [unfold unwrap; rewrite Hr; destruct (rc_reps rc); discriminate|]. intros errs He.
    destruct (rc_reps rc) as [|x l] eqn:Hreps.
    + left. unfold unwrap in *. rewrite Hr, Hreps in *. injection He as <-. eexists. split; [reflexivity|]. split; [reflexivity|]. split; [reflexivity|].
      intros y Hy. apply K in Hy as (rc' & rep & K' & Hin & _). injection K' as <-. rewrite Hreps in Hin. destruct Hin.
    + right. assert (Hne : rc_reps rc <> []) by (rewrite Hreps; discriminate).
      destruct (unwrap_best _ _ _ _ _ _ _ _ _ _ H Hr Hne) as (rep & (l1 & l2 & El & P1 & P2) & U1 & U2).
      assert (Hin : In rep (rc_reps rc)) by (rewrite El; apply in_or_app; right; left; reflexivity).
      assert (BP : forall q, In q (rc_reps rc) -> r_cost q = reported_cost q /\ (r_prio q = None \/ r_prio q = Some 0)).
      { intros q Hq. destruct (parse_basic _ _ _ _ _ _ _ _ _ _ _ H Hr Hq) as (_ & B1 & B2). auto. }
      assert (LK : forall q, In q (rc_reps rc) -> like q (yof q)).
      { intros q Hq. destruct (BP q Hq) as [_ [B|B]]; unfold like, yof; cbn; rewrite B; auto 10. }
      exists (yof rep). split; [apply K; exists rc, rep; auto|]. split; [exact U1|]. split.
      * rewrite He in U2. injection U2 as ->. unfold y_reported, yof. cbn.
        clear. induction (r_ops rep) as [|o ops IH]; cbn; constructor; auto.
      * intros y' Hy'. apply K in Hy' as (rc' & rep' & K' & Hin' & L). injection K' as <-.
        assert (NP : ~ preferred rep' rep).
        { rewrite El in Hin'. apply in_app_or in Hin' as [Hin'|[<-|Hin']]; auto.
          - intros C. specialize (P1 _ Hin'). unfold preferred in *.
            destruct P1 as [P1|(P1 & [P1'|(P1' & P3 & P4)])], C as [C|(C & [C'|(C' & C3 & C4)])]; try lia; congruence.
          - unfold preferred. intros [C|(C & [C'|(C' & C3 & C4)])]; try lia; congruence. }
        intros C. apply NP. destruct L as (L1 & L2 & L3 & L4 & L5 & L6). unfold y_better, yof in C. cbn in C. unfold preferred.
        destruct (BP _ Hin) as [B1 B2]. destruct (BP _ Hin') as [B3 B4].
        rewrite <- B1, <- B3, L1, L6. destruct C as [C|(C & [C'|(C' & C3 & C4)])]; auto. right. split; auto. right. split; auto.
        rewrite L2, C3. split; [discriminate|]. destruct B2 as [B2|B2]; rewrite B2 in C4; congruence.
Qed.
Print Assumptions C74_best_mend.

(** ** What mends cost *)
Section Cost.
Context {T : Type} {V : nat -> Type} (E : env T V) (s : list T) (at_ : nat -> loc).

Lemma ops_cost_app a b : ops_cost (a ++ b) = ops_cost a + ops_cost b.
Proof. unfold ops_cost. rewrite map_app. induction (map op_cost a) as [|x l IH]; cbn; [reflexivity|]. unfold list_sum in *. lia. Qed.
Lemma mend_cost A (g : gram T V A) m i ins rem y : mend E s at_ A g m i ins rem y ->
  y_ops y <> [] /\ Forall (fun o => 0 < op_cost (fst o)) (y_ops y) /\ y_cost y = ops_cost (map fst (y_ops y)).
Proof.
  induction 1; cbn [y_ops y_cost y_skip y_insert y_with y_then_read y_then_mend map fst] in *; auto;
    try (split; [discriminate|]; split; [constructor; [cbn; try lia|constructor]|unfold ops_cost; cbn; lia]);
    try (match goal with N : next_hit _ _ _ _ _ _ |- _ => destruct N as (? & _); lia end).
  all: destruct IHmend1 as (K1 & K2 & K3), IHmend2 as (L1 & L2 & L3); split;
    [intros Q; apply app_eq_nil in Q as [Q _]; auto|split; [apply Forall_app; auto|rewrite map_app, ops_cost_app; lia]].
Qed.
Lemma mend_one A (g : gram T V A) m i ins rem y : mend E s at_ A g m i ins rem y -> y_cost y <= 1 ->
  exists o l, y_ops y = [(o, l)] /\ (o = Skip 1 \/ exists x, o = Insert x).
Proof.
  intros M Q. destruct (mend_cost _ _ _ _ _ _ _ M) as (K1 & K2 & K3). rewrite K3 in Q.
  destruct (y_ops y) as [|[o l] [|[o' l'] ops]]; [destruct (K1 eq_refl)| |].
  - exists o, l. split; auto. inversion K2 as [|? ? P _]. unfold ops_cost in Q. cbn in P, Q. destruct o as [n|z]; [|right; eauto].
    left. f_equal. cbn in P, Q. lia.
  - exfalso. inversion K2 as [|? ? P K2']. inversion K2' as [|? ? P' _]. unfold ops_cost in Q. cbn in P, P', Q. lia.
Qed.

(** without recover and recover_with, every repair that starts with an insertion starts with an automatic one *)
Lemma mend_auto A (g : gram T V A) m i ins rem y : mend E s at_ A g m i ins rem y -> recover_free E g ->
  match y_ops y with (Skip _, _) :: _ => y_auto y = false | (Insert _, _) :: _ => y_auto y = true | [] => False end.
Proof.
  unfold recover_free. induction 1; intros W; cbn [y_ops y_auto y_skip y_insert y_with y_then_read y_then_mend] in *;
    auto; try (apply IHmend; exact W);
    try (apply IHmend; intros C' q' Ho; apply W; first [eapply oc_seq_l; eassumption|eapply oc_seq_r; eassumption|econstructor; eassumption]);
    try (exfalso; apply ev_here in W; cbn in W; tauto).
  - specialize (IHmend1 (ev_bind_l _ _ _ _ _ _ W)). destruct (y_ops y) as [|[[]] ?]; cbn; tauto.
  - specialize (IHmend1 (ev_seq_l _ _ _ _ _ _ _ _ W)). destruct (y_ops y) as [|[[]] ?]; cbn; tauto.
  - specialize (IHmend1 (ev_many _ _ _ _ W)). destruct (y_ops y) as [|[[]] ?]; cbn; tauto.
Qed.
End Cost.

(** ** If one skipped token or one insertion can mend the input, exactly one error is reported *)
Theorem C74_one_error :
  forall T V (E : env T V) n A (g : gram T V A) s mi get fmt locof r y,
  wf_env E -> wf g -> cohere get s locof -> lay_ok E g s locof ->
  parse E n g s true mi get fmt = Ret r ->
  mend E s locof A g 0 0 mi (Some mi) y -> y_cost y = 1 ->
  exists e v, unwrap r false = Raises [e] /\ unwrap r true = Returns v /\
    (ei_op e = Some (Skip 1) \/ exists x, ei_op e = Some (Insert x)).
Proof.
  intros T V E n A g s mi get fmt locof r y HE Hg Hco Hl H My Cy.
  destruct (C74_best_mend _ _ _ _ _ _ _ _ _ _ _ _ HE Hg Hco Hl H) as [K1 K2]. cbv zeta in K1, K2.
  destruct (unwrap r false) as [v|errs]; [destruct (K1 v eq_refl y My)|].
  destruct (K2 errs eq_refl) as [(e & _ & _ & _ & N)|(y' & M & U & R & B)]; [destruct (N y My)|].
  assert (C : y_cost y' <= 1).
  { destruct (Nat.leb_spec (y_cost y') 1); auto. destruct (B y My). left. lia. }
  destruct (mend_one _ _ _ _ _ _ _ _ _ _ M C) as (o & l & O1 & O2).
  unfold y_reported in R. rewrite O1 in R. inversion R as [|e o' es os (R1 & _) R3]. subst. inversion R3. subst.
  exists e, (y_val y'). split; auto. split; auto. cbn in R1. destruct O2 as [-> | (x & ->)]; eauto.
Qed.
Print Assumptions C74_one_error.

(** ** One token too many, in a parser that reads to the end: if skipping it is
    a way of mending the input, it is skipped, where it is, and nothing else is reported *)
Theorem C74_superfluous :
  forall T V (E : env T V) n A (g : gram T V A) s mi get fmt locof r y l,
  wf_env E -> wf g -> cohere get s locof -> lay_ok E g s locof ->
  recover_free E g -> attempt_free E g ->
  parse E n (seql g GEof) s true mi get fmt = Ret r ->
  mend E s locof A (seql g GEof) 0 0 mi (Some mi) y -> y_ops y = [(Skip 1, l)] ->
  exists e v, unwrap r false = Raises [e] /\ unwrap r true = Returns v /\
    ei_op e = Some (Skip 1) /\ ei_loc e = l /\ ei_loc_str e = fmt l.
Proof.
  intros T V E n A g s mi get fmt locof r y l HE Hg Hco Hl HR HA H My Oy.
  assert (Hg' := wf_eof _ _ Hg). assert (Hl' := lay_eof E _ _ _ _ Hl).
  assert (HR' : recover_free E (seql g GEof)) by (apply ev_eof; auto).
  assert (HA' : attempt_free E (seql g GEof)) by (apply ev_eof; auto).
  assert (HW : single_withs E (seql g GEof)).
  { intros B q Ho. specialize (HR' B q Ho). destruct q; cbn in *; tauto. }
  destruct (C74_best_mend _ _ _ _ _ _ _ _ _ _ _ _ HE Hg' Hco Hl' H) as [K1 K2]. cbv zeta in K1, K2.
  destruct (unwrap r false) as [v|errs] eqn:Hu; [destruct (K1 v eq_refl y My)|].
  destruct (K2 errs eq_refl) as [(e & _ & _ & _ & N)|(y' & M & U & R & B)]; [destruct (N y My)|].
  assert (Cy : y_cost y = 1).
  { destruct (mend_cost _ _ _ _ _ _ _ _ _ _ My) as (_ & _ & ->). rewrite Oy. reflexivity. }
  assert (C : y_cost y' <= 1).
  { destruct (Nat.leb_spec (y_cost y') 1); auto. destruct (B y My). left. lia. }
  destruct (mend_one _ _ _ _ _ _ _ _ _ _ M C) as (o & l' & O1 & O2).
  assert (C' : y_cost y' = 1).
  { destruct (mend_cost _ _ _ _ _ _ _ _ _ _ M) as (_ & _ & ->). rewrite O1. destruct O2 as [-> | (x & ->)]; reflexivity. }
  pose proof (proj1 (parse_full _ _ _ _ _ _ _ _ _) H) as [Hf HF].
  pose proof (mend_iff E _ s get locof HE Hg' Hco Hl' 0 (init_ctx get) mi (Some mi) n _ ltac:(lia) (pos_init _ _) HF) as K.
  cbn [ctx_mark init_ctx] in K.
  destruct (proj1 (K y) My) as (rc & rep & Hr & Hin & L1 & L2 & L3 & L4 & L5 & L6).
  destruct (proj1 (K y') M) as (rc' & rep' & Hr' & Hin' & L1' & L2' & L3' & L4' & L5' & L6').
  rewrite Hr in Hr'. injection Hr' as <-.
  assert (P : forall q, In q (rc_reps rc) -> r_pos q = List.length s).
  { pose proof (parse_eof_ends _ _ _ _ _ _ _ _ _ _ H) as P. rewrite Hr in P. exact P. }
  (* the repair does not start with an insertion *)
  pose proof (mend_auto _ _ _ _ _ _ _ _ _ _ My HR') as A1. pose proof (mend_auto _ _ _ _ _ _ _ _ _ _ M HR') as A2.
  rewrite Oy in A1. rewrite O1 in A2.
  assert (Oe : o = Skip 1).
  { destruct O2 as [-> | (x & ->)]; auto. destruct (B y My). right. split; [lia|]. right.
    rewrite <- L6, <- L6'. split; [rewrite (P _ Hin), (P _ Hin'); reflexivity|auto]. }
  subst o.
  (* it stands where the plain parser fails *)
  assert (Q : l' = l).
  { pose proof (sim_fast_full E n A (seql g GEof) s 0 (init_ctx get) mi (Some mi)) as Hs. rewrite HF, Hr in Hs.
    destruct (fast E n (seql g GEof) s 0 (init_ctx get)) as [[o|x]|ex|] eqn:Hx; cbn in Hs; try discriminate.
    assert (H0 : exists r0, parse E n (seql g GEof) s false mi get fmt = Ret r0 /\ unwrap r0 false = Raises [ErrorItem (er_loc x) (fmt (er_loc x)) (er_exp x) None]).
    { unfold parse. rewrite Hx. eexists. split; reflexivity. }
    destruct H0 as (r0 & H0 & U0).
    destruct (first_agree E n n A _ s mi mi get fmt r0 r _ locof HE Hg' Hco Hl' HA' HW H0 U0 H) as (_ & x' & E' & AG).
    rewrite Hr in AG. destruct AG as (_ & _ & _ & AG).
    destruct (AG _ Hin) as (o1 & t1 & T1 & T2 & _). destruct (AG _ Hin') as (o2 & t2 & T3 & T4 & _).
    rewrite <- L4 in Oy. rewrite T1 in Oy. rewrite <- L4' in O1. rewrite T3 in O1. cbn in Oy, O1. injection Oy as _ Q1 _. injection O1 as _ Q2 _. congruence. }
  subst l'. unfold y_reported in R. rewrite O1 in R. inversion R as [|e o' es os (R1 & R2 & R2') R3]. subst. inversion R3. subst.
  cbn in R1, R2, R2'. exists e, (y_val y'). auto 10.
Qed.
Print Assumptions C74_superfluous.

(** ... and, if one token of lookahead is enough, the value is the value of the input without that token *)
Lemma edits_keep {T} (es : list (edit T)) : forall i, edits_ops i es = [] -> edits_out es = map inl (edits_in es).
Proof.
  induction es as [|[t|ts|l w] es IH]; intros i H; cbn in H; try discriminate; [reflexivity|].
  specialize (IH _ H). unfold edits_out, edits_in in *. cbn. rewrite IH. reflexivity.
Qed.
Lemma edits_one {T} (es : list (edit T)) : forall i p t, edits_ops i es = [(Skip 1, p)] -> edits_out es = map inl t ->
  exists s1 x s2, edits_in es = s1 ++ x :: s2 /\ t = s1 ++ s2 /\ p = i + List.length s1.
Proof.
  assert (J : forall a b : list T, map (@inl T string) a = map inl b -> a = b).
  { intros a. induction a as [|x a IH]; intros [|y b] Q; cbn in Q; try discriminate; [reflexivity|].
    injection Q as -> Q. f_equal. auto. }
  induction es as [|[x|ts|l w] es IH]; intros i p t H Ht; cbn in H; try discriminate.
  - cbn in Ht. destruct t as [|x' t]; [discriminate|]. cbn in Ht. injection Ht as <- Ht.
    destruct (IH _ _ _ H Ht) as (s1 & z & s2 & Q1 & Q2 & Q3). exists (x :: s1), z, s2. unfold edits_in in *. cbn. rewrite Q1, Q2, Q3. repeat split. lia.
  - injection H as H1 H2 H3. destruct ts as [|x [|x' ts]]; cbn in H1; try discriminate.
    exists [], x, (edits_in es). pose proof (edits_keep _ _ H3) as K. unfold edits_out, edits_in in *. cbn in *. rewrite K in Ht. apply J in Ht. repeat split; auto. lia.
Qed.
Theorem C74_superfluous_value :
  forall T V (E : env T V) n A (g : gram T V A) s mi get fmt locof r y l,
  wf_env E -> wf g -> cohere get s locof -> lay_ok E g s locof ->
  recover_free E g -> attempt_free E g ->
  everywhere E (completable_node E) g -> LL1 E g -> everywhere E (quiet_node E) g -> guarded E g ->
  parse E n (seql g GEof) s true mi get fmt = Ret r ->
  mend E s locof A (seql g GEof) 0 0 mi (Some mi) y -> y_ops y = [(Skip 1, l)] ->
  exists e v s1 x s2, unwrap r false = Raises [e] /\ unwrap r true = Returns v /\
    ei_op e = Some (Skip 1) /\ ei_loc e = l /\
    s = s1 ++ x :: s2 /\ l = locof (List.length s1) /\
    forall rec mi' fmt', (0 <= mi')%Z ->
    exists n' r', parse E n' (seql g GEof) (s1 ++ s2) rec mi' default_get_loc fmt' = Ret r' /\ unwrap r' false = Returns v.
Proof.
  intros T V E n A g s mi get fmt locof r y l HE Hg Hco Hl HR HA HC HL HQ HG H My Oy.
  destruct (C74_superfluous _ _ _ _ _ _ _ _ _ _ _ _ _ _ HE Hg Hco Hl HR HA H My Oy) as (e & v & U1 & U2 & O & L & _).
  assert (HW : with_free E g).
  { intros B q Ho. specialize (HR B q Ho). destruct q; cbn in *; tauto. }
  destruct (C48_token_repairs_accepted _ _ _ _ _ _ _ _ _ _ _ _ _ _ HE Hg Hco Hl HC HL HQ HG HW H U2 U1)
    as (es & t & E1 & E2 & E3 & E4).
  inversion E3 as [|e' [o p] es' ops (R1 & R2 & R3) F Q1 Q2]. subst. inversion F. subst. cbn in R1, R2.
  rewrite O in R1. injection R1 as <-.
  destruct (edits_one _ _ _ _ (eq_sym Q2) E2) as (s1 & x & s2 & W1 & W2 & W3). subst t. cbn in W3. subst p.
  exists e, v, s1, x, s2. auto 10.
Qed.
Print Assumptions C74_superfluous_value.

(** ** Cases: a digit, something else, a semicolon *)
Definition one_junk (d x : char) : list char := [d; x; ex_ch ";"].
Definition a_digit (d : char) : Prop := (48 <= d <= 57)%N.
Lemma junk_mend (d x : char) : a_digit d -> x <> ex_ch ";" ->
  exists y, mend lay_E (one_junk d x) (true_loc (one_junk d x)) Z (seql ex_wfree GEof) 0 0 5 (Some 5)%Z y /\
    y_ops y = [(Skip 1, true_loc (one_junk d x) 1)] /\ y_val y = (Z.of_N d - 48)%Z.
Proof.
  intros [D1 D2] X. eexists. split.
  - eapply md_seq_1.
    + unfold ex_wfree, seql. eapply md_seq_2.
      * unfold ex_digit. eapply pg_fmap; [|reflexivity]. apply pg_label. apply pg_sat; [reflexivity|].
        apply N.leb_le in D1, D2. rewrite D1, D2. reflexivity.
      * cbn. apply md_sym_skip with (j := 2) (t := ex_ch ";").
        -- intros t Q. injection Q as <-. apply N.eqb_neq. exact X.
        -- split; [cbn; lia|]. split; [split; reflexivity|]. intros k K. lia.
    + exact (pg_eof _ (one_junk d x) _ _).
  - split; reflexivity.
Qed.
Theorem C74_case : forall d x n r, a_digit d -> x <> ex_ch ";" ->
  scannerless_parse lay_E n (seql ex_wfree GEof) (one_junk d x) true = Ret r ->
  exists e v, unwrap r false = Raises [e] /\ unwrap r true = Returns v /\
    ei_op e = Some (Skip 1) /\ ei_loc e = true_loc (one_junk d x) 1.
Proof.
  intros d x n r D X H. destruct (junk_mend d x D X) as (y & My & Oy & _).
  assert (W : wf ex_wfree /\ wf_env lay_E) by (split; [repeat split|apply lay_wf]). destruct W as [W WE].
  destruct (C74_superfluous char ex_V lay_E n Z ex_wfree (one_junk d x) 5 scannerless_get_loc linecol_fmt
    (true_loc (one_junk d x)) r y _ WE W (scannerless_cohere _) (or_introl (scannerless_exact _))
    ltac:(apply everywhere_gall; [intros k|]; solve_gall) ltac:(apply everywhere_gall; [intros k|]; solve_gall) H My Oy)
    as (e & v & U1 & U2 & O & L & _).
  exists e, v. auto.
Qed.
Print Assumptions C74_case.
Example C74_case_value :
  exists r e r', scannerless_parse lay_E 9 (seql ex_wfree GEof) (ex_str "1x;") true = Ret r /\
    unwrap r false = Raises [e] /\ unwrap r true = Returns 1%Z /\ ei_op e = Some (Skip 1) /\
    scannerless_parse lay_E 9 (seql ex_wfree GEof) (ex_str "1;") false = Ret r' /\ unwrap r' false = Returns 1%Z.
Proof. do 3 eexists. repeat (split; [vm_compute; reflexivity|]). vm_compute. reflexivity. Qed.

(** Not every input that is one token away from a sentence can be mended by
    skipping one token: many("a") does not look behind the "x" in "axa", so two
    tokens are skipped, and no mend costs less. *)
Definition ex_manya : ex_gram (list char) := seql (GMany (ex_sym "a")) GEof.
Theorem C74_two_skipped :
  (exists r, scannerless_parse lay_E 9 ex_manya (ex_str "aa") false = Ret r /\ unwrap r false = Returns (ex_str "aa")) /\
  (exists r e, scannerless_parse lay_E 9 ex_manya (ex_str "axa") true = Ret r /\
     unwrap r false = Raises [e] /\ ei_op e = Some (Skip 2)) /\
  forall y, mend lay_E (ex_str "axa") (true_loc (ex_str "axa")) _ ex_manya 0 0 5 (Some 5)%Z y -> 2 <= y_cost y.
Proof.
  assert (H : exists r e, scannerless_parse lay_E 9 ex_manya (ex_str "axa") true = Ret r /\
     unwrap r false = Raises [e] /\ ei_op e = Some (Skip 2)).
  { do 2 eexists. repeat (split; [vm_compute; reflexivity|]). vm_compute. reflexivity. }
  split; [eexists; split; vm_compute; reflexivity|]. split; [exact H|].
  destruct H as (r & e & H & U & O). intros y My.
  destruct (mend_cost _ _ _ _ _ _ _ _ _ _ My) as (N & P & C).
  destruct (Nat.leb_spec 2 (y_cost y)) as [|L]; auto. exfalso.
  assert (Cy : y_cost y = 1).
  { rewrite C in *. destruct (y_ops y) as [|[o l] ops]; [destruct (N eq_refl)|]. inversion P as [|? ? P1 _]. unfold ops_cost in *. cbn in *. lia. }
  assert (W : wf ex_manya /\ wf_env lay_E) by (split; [cbn; auto|apply lay_wf]). destruct W as [W WE].
  destruct (C74_one_error char ex_V lay_E 9 _ ex_manya (ex_str "axa") 5 scannerless_get_loc linecol_fmt
    (true_loc (ex_str "axa")) r y WE W (scannerless_cohere _) (or_introl (scannerless_exact _)) H My Cy) as (e' & v & U' & _ & Q).
  rewrite U in U'. injection U' as <-. rewrite O in Q. destruct Q as [Q|[? Q]]; discriminate.
Qed.
Print Assumptions C74_two_skipped.
