(** From runs of the interpreters to [Parser.parse] and [unwrap]. *)
From Verif Require Export ApiSpec Fuel RepInd EditSpec Locations.

Section ApiProofs.
Context {T : Type} {V : nat -> Type}.
Implicit Types (E : env T V) (s : list T).

Lemma parse_full E n A (g : gram T V A) s mi get fmt r :
  parse E n g s true mi get fmt = Ret r <->
  pr_fmt r = fmt /\ full E n g s 0 (init_ctx get) mi (Some mi) = Ret (pr_result r).
Proof.
  unfold parse. split.
  - intros H. apply obind_ret in H as [x [H1 H2]]. injection H2 as <-. auto.
  - intros [H1 H2]. rewrite H2. simpl. destruct r; simpl in *; subst; reflexivity.
Qed.
Lemma parse_fast E n A (g : gram T V A) s mi get fmt r :
  parse E n g s false mi get fmt = Ret r <->
  pr_fmt r = fmt /\ exists sr, fast E n g s 0 (init_ctx get) = Ret sr /\
    pr_result r = sres_res sr.
Proof.
  unfold parse. split.
  - intros H. apply obind_ret in H as [x [H1 H2]]. injection H2 as <-. simpl.
    unfold omap in H1. apply obind_ret in H1 as [sr [H1 H2]]. injection H2 as <-. eauto.
  - intros [H1 [sr [H2 H3]]]. rewrite H2. simpl. destruct r; simpl in *; subst; reflexivity.
Qed.

(** *** C01, C02 *)
Lemma recover_transparent E n A (g : gram T V A) s mi mi' get fmt v :
  (exists r, parse E n g s false mi get fmt = Ret r /\ unwrap r false = Returns v) <->
  (exists r, parse E n g s true mi' get fmt = Ret r /\ unwrap r false = Returns v).
Proof.
  pose proof (sim_fast_full E n A g s 0 (init_ctx get) mi' (Some mi')) as Hs.
  split; intros [r [Hr Hu]].
  - apply parse_fast in Hr as [Hf [sr [Hr Hp]]]. rewrite Hr in Hs. simpl in Hs.
    unfold unwrap in Hu. rewrite Hp in Hu. destruct sr as [o|e]; [|discriminate].
    exists (ResultWrapper (ROk o) fmt). split; [apply parse_full; auto|]. exact Hu.
  - apply parse_full in Hr as [Hf Hr]. unfold unwrap in Hu.
    destruct (pr_result r) as [o|e|rc] eqn:Hp; try discriminate.
    + apply full_ok_iff in Hr. exists (ResultWrapper (ROk o) fmt). split; [|exact Hu].
      apply parse_fast. split; auto. exists (SOk o). auto.
    + destruct (rc_reps rc); discriminate.
Qed.

Lemma recover_same_exn E n A (g : gram T V A) s mi mi' get fmt e :
  parse E n g s false mi get fmt = Raise e ->
  parse E n g s true mi' get fmt = Raise e.
Proof.
  pose proof (sim_fast_full E n A g s 0 (init_ctx get) mi' (Some mi')) as Hs.
  unfold parse, omap. destruct (fast E n g s 0 (init_ctx get)); simpl; intros H; try discriminate.
  injection H as <-. simpl in Hs. rewrite Hs. reflexivity.
Qed.

Lemma recover_only_finishes E n A (g : gram T V A) s mi mi' get fmt r :
  parse E n g s true mi get fmt = Ret r ->
  exists r', parse E n g s false mi' get fmt = Ret r'.
Proof.
  pose proof (sim_fast_full E n A g s 0 (init_ctx get) mi (Some mi)) as Hs.
  unfold parse, omap. destruct (fast E n g s 0 (init_ctx get)) as [sr|e|]; simpl in Hs.
  - intros _. eexists. reflexivity.
  - rewrite Hs. discriminate.
  - rewrite Hs. discriminate.
Qed.

(** *** the chosen repair *)
Lemma key_lt_preferred A (a b : repair T A) :
  rep_basic A a -> rep_basic A b -> key_lt a b = true <-> preferred a b.
Proof.
  intros (_ & Ha & Pa) (_ & Hb & Pb). unfold key_lt, preferred, reported_cost.
  rewrite <- Ha, <- Hb.
  destruct (Nat.ltb_spec (r_cost a) (r_cost b)); simpl; [tauto|].
  destruct (Nat.eqb_spec (r_cost a) (r_cost b)); simpl; [|split; [discriminate|lia]].
  destruct (Nat.ltb_spec (r_pos b) (r_pos a)); simpl; [intuition|].
  destruct (Nat.eqb_spec (r_pos a) (r_pos b)); simpl; [|split; [discriminate|lia]].
  destruct Pa as [Pa|Pa], Pb as [Pb|Pb]; rewrite Pa, Pb; simpl; split; intros HH;
    try discriminate; try lia; try reflexivity.
  - destruct HH as [HH|[_ [HH|(_ & HH & HH')]]]; try lia; congruence.
  - destruct HH as [HH|[_ [HH|(_ & HH & HH')]]]; try lia; congruence.
  - right. split; auto. right. repeat split; auto. discriminate.
  - destruct HH as [HH|[_ [HH|(_ & HH & HH')]]]; try lia; congruence.
Qed.

Lemma preferred_trans A (a b c : repair T A) :
  preferred a b -> preferred b c -> preferred a c.
Proof.
  unfold preferred. intros H K.
  destruct H as [H|[H [H1|(H1 & H2 & H3)]]], K as [K|[K [K1|(K1 & K2 & K3)]]];
    try (left; lia); right; (split; [congruence|]); try (left; lia); try congruence.
Qed.
Lemma not_preferred_trans A (a b c : repair T A) :
  ~ preferred b a -> ~ preferred c b -> ~ preferred c a.
Proof.
  unfold preferred. intros H K L.
  assert (D : r_prio b = None \/ r_prio b <> None) by (destruct (r_prio b); auto; right; discriminate).
  destruct L as [L|[L [L1|(L1 & L2 & L3)]]].
  - apply H. left. destruct (Nat.ltb_spec (reported_cost c) (reported_cost b)); [exfalso; auto|lia].
  - destruct (Nat.lt_trichotomy (reported_cost c) (reported_cost b)) as [C|[C|C]].
    + apply K; auto.
    + destruct (Nat.ltb_spec (r_pos b) (r_pos c)).
      * apply K; auto.
      * apply H. right. split; [congruence|]. left. lia.
    + apply H. left. lia.
  - destruct (Nat.lt_trichotomy (reported_cost c) (reported_cost b)) as [C|[C|C]].
    + apply K; auto.
    + destruct (Nat.lt_trichotomy (r_pos b) (r_pos c)) as [Q|[Q|Q]].
      * apply K; auto.
      * destruct D as [D|D].
        -- apply K. right. auto.
        -- apply H. right. split; [congruence|]. right. repeat split; auto; congruence.
      * apply H. right. split; [congruence|]. left. lia.
    + apply H. left. lia.
Qed.
Lemma py_min_first A : forall (l : list (repair T A)) x,
  rep_basic A x -> (forall y, In y l -> rep_basic A y) ->
  first_best (x :: l) (py_min x l).
Proof.
  assert (asym : forall a b : repair T A, preferred a b -> ~ preferred b a).
  { unfold preferred. intros a b H K.
    destruct H as [H|[H [H1|(H1 & H2 & H3)]]], K as [K|[K [K1|(K1 & K2 & K3)]]];
      try lia; congruence. }
  induction l as [|y l IH] using rev_ind; intros x Hx Hl.
  - exists [], []. simpl. repeat split; auto; intros ? [].
  - assert (E : py_min x (l ++ [y]) = let m := py_min x l in if key_lt y m then y else m).
    { clear. revert x. induction l as [|z l IH]; intros x; simpl; auto. }
    rewrite E. cbv zeta.
    destruct (IH x Hx) as (l1 & l2 & H1 & H2 & H3); [intros z Hz; apply Hl, in_or_app; auto|].
    assert (Hm : rep_basic A (py_min x l)).
    { assert (Hi : In (py_min x l) (x :: l)) by (rewrite H1; apply in_or_app; simpl; auto).
      destruct Hi as [<-|Hi]; auto. apply Hl, in_or_app; auto. }
    assert (Hy : rep_basic A y) by (apply Hl, in_or_app; simpl; auto).
    destruct (key_lt y (py_min x l)) eqn:K.
    + apply key_lt_preferred in K; auto.
      exists (x :: l), []. split; [reflexivity|]. split; [|intros ? []].
      rewrite H1. intros z Hz. apply in_app_or in Hz as [Hz|[<-|Hz]]; auto.
      * eapply preferred_trans; [exact K|]. auto.
      * assert (Hnz : ~ preferred z (py_min x l)) by auto.
        revert K Hnz. generalize (py_min x l) as m. clear. unfold preferred. intros m K Hnz.
        assert (D : r_prio z = None \/ r_prio z <> None)
          by (destruct (r_prio z); auto; right; discriminate).
        destruct (Nat.lt_trichotomy (reported_cost z) (reported_cost m)) as [C|[C|C]];
          [exfalso; auto| |left; lia].
        destruct K as [K|[K K']]; [left; lia|right; split; [congruence|]].
        destruct (Nat.lt_trichotomy (r_pos z) (r_pos m)) as [Q|[Q|Q]].
        -- left. destruct K'; lia.
        -- destruct K' as [K'|(K1 & K2 & K3)]; [left; lia|]. right.
           repeat split; auto; [congruence|]. destruct D as [D|D]; auto.
           exfalso. apply Hnz. right. auto.
        -- exfalso. apply Hnz. right. auto.
    + exists l1, (l2 ++ [y]). rewrite app_comm_cons, H1, <- app_assoc. split; [reflexivity|].
      split; auto. intros z Hz. apply in_app_or in Hz as [Hz|[<-|[]]]; auto.
      intros Hp. apply key_lt_preferred in Hp; auto. congruence.
Qed.

Lemma parse_basic E n A (g : gram T V A) s mi get fmt r rc rep :
  parse E n g s true mi get fmt = Ret r -> pr_result r = RRec rc -> In rep (rc_reps rc) ->
  rep_basic A rep.
Proof.
  intros H Hr Hin. apply parse_full in H as [_ H]. rewrite Hr in H. eapply full_basic; eauto.
Qed.

Lemma unwrap_best E n A (g : gram T V A) s mi get fmt r rc :
  parse E n g s true mi get fmt = Ret r -> pr_result r = RRec rc -> rc_reps rc <> [] ->
  exists rep, first_best (rc_reps rc) rep /\
    unwrap r true = Returns (r_val rep) /\
    unwrap r false = Raises (map (item_of_op fmt) (r_ops rep)).
Proof.
  intros H Hr Hne. pose proof (proj1 (parse_full _ _ _ _ _ _ _ _ _) H) as [Hf _].
  pose proof (fun rep => parse_basic _ _ _ _ _ _ _ _ _ _ rep H Hr) as Hb.
  unfold unwrap. rewrite Hr. destruct (rc_reps rc) as [|x l]; [contradiction|].
  exists (py_min x l). rewrite Hf. split; [|auto].
  apply py_min_first; intros; apply Hb; simpl; auto.
Qed.

(** what a recovering run reports *)
Lemma unwrap_repair E n A (g : gram T V A) s mi get fmt r v errs :
  parse E n g s true mi get fmt = Ret r ->
  unwrap r true = Returns v -> unwrap r false = Raises errs ->
  exists rc rep, pr_result r = RRec rc /\ In rep (rc_reps rc) /\ v = r_val rep /\
    errs = map (item_of_op fmt) (r_ops rep).
Proof.
  intros H Hv He. pose proof H as H'.
  destruct (pr_result r) as [o|e|rc] eqn:Hr.
  - unfold unwrap in He. rewrite Hr in He. discriminate.
  - unfold unwrap in Hv. rewrite Hr in Hv. discriminate.
  - destruct (rc_reps rc) as [|x l] eqn:Hl.
    + unfold unwrap in Hv. rewrite Hr, Hl in Hv. discriminate.
    + destruct (unwrap_best _ _ _ _ _ _ _ _ _ _ H Hr) as (rep & Hb & H1 & H2);
        [rewrite Hl; discriminate|].
      rewrite H1 in Hv. rewrite H2 in He. injection Hv as <-. injection He as <-.
      exists rc, rep. repeat split; auto. destruct Hb as (l1 & l2 & -> & _).
      apply in_or_app. simpl. auto.
Qed.

(** *** the edit invariant at the level of parse *)
Lemma parse_good E n A (g : gram T V A) s rec mi get fmt r locrel colrel Cok lay :
  ctx_system s locrel colrel Cok lay -> (forall d, gok lay (E d)) -> gok lay g ->
  Cok 0 (init_ctx get) ->
  parse E n g s rec mi get fmt = Ret r ->
  resgood s locrel Cok (der E s colrel g 0 0) 0 0 (Some mi) (pr_result r).
Proof.
  intros CS HE Hg Hc H. destruct rec.
  - apply parse_full in H as [_ H].
    apply (full_good E s locrel colrel Cok lay CS HE) in H; auto; lia.
  - apply parse_fast in H as [_ [sr [H ->]]].
    apply (fast_good E s locrel colrel Cok lay CS HE) in H; auto; try lia.
    destruct sr; exact H.
Qed.

Lemma skrel_split locrel ops sk :
  Forall2 (skrel locrel) (map opskel ops) sk ->
  map op_op ops = map fst sk /\ Forall2 (fun o x => locrel (snd x) (op_loc o)) ops sk.
Proof.
  revert sk. induction ops as [|o ops IH]; simpl; intros sk H; inversion H; subst; simpl; auto.
  destruct H2 as [H1 H2]. destruct (IH _ H4) as [K1 K2]. split; auto. f_equal; auto.
Qed.

(** Offered repairs are explained by edit scripts *)
Lemma repair_script E n A (g : gram T V A) s mi get fmt r rc rep :
  wf_env E -> wf g ->
  parse E n g s true mi get fmt = Ret r -> pr_result r = RRec rc -> In rep (rc_reps rc) ->
  exists es,
    edits_in es = slice s 0 (r_pos rep) /\ r_pos rep <= List.length s /\
    map op_op (r_ops rep) = map fst (edits_ops 0 es) /\
    lang E A g (edits_out es) (r_val rep) /\ edits_from E g es.
Proof.
  intros HE Hg H Hr Hin.
  assert (G : forall (lay : Prop) A (g : gram T V A), wf g -> gok True g).
  { intros. apply gok_wf; auto. }
  pose proof (parse_good E n A g s true mi get fmt r (fun _ _ => True) (fun _ _ => True)
    any_Cok True (any_system s True) (fun d => G True _ _ (HE d)) (G True _ _ Hg) I H) as R.
  rewrite Hr in R. destruct R as [_ R]. destruct (R _ Hin) as [(sk & S1 & S2 & S3 & S4 & S5 & S6) _].
  apply skrel_split in S1 as [S1 _].
  destruct (ederiv_explained E s _ HE _ _ _ _ _ _ _ S2 Hg) as (es & X1 & X2 & X3 & X4); [lia|].
  exists es. rewrite X2. repeat split; auto. lia.
Qed.

(** ... with the locations, for location functions that depend on the position only *)
Lemma repair_script_loc E n A (g : gram T V A) s mi get fmt r rc rep locof :
  wf_env E -> wf g -> cohere get s locof -> lay_ok E g s locof ->
  parse E n g s true mi get fmt = Ret r -> pr_result r = RRec rc -> In rep (rc_reps rc) ->
  exists es,
    edits_in es = slice s 0 (r_pos rep) /\ r_pos rep <= List.length s /\
    Forall2 (reports locof fmt) (map (item_of_op fmt) (r_ops rep)) (edits_ops 0 es) /\
    lang E A g (edits_out es) (r_val rep) /\ edits_from E g es /\
    ops_sorted 0 (r_pos rep) (edits_ops 0 es) /\
    reported_cost rep = ops_cost (map fst (edits_ops 0 es)).
Proof.
  intros HE Hg Hco Hlay H Hr Hin.
  assert (G : gok (exactpos s locof) g /\ forall d, gok (exactpos s locof) (E d)).
  { destruct Hlay as [L|[L1 L2]]; split; intros; apply gok_wf; auto. }
  destruct G as [G1 G2].
  pose proof (parse_good E n A g s true mi get fmt r _ _ _ _
    (pos_system s get locof _ Hco (fun x => x)) G2 G1 (pos_init get locof) H) as R.
  rewrite Hr in R. destruct R as [_ R]. destruct (R _ Hin) as [(sk & S1 & S2 & S3 & S4 & S5 & S6) _].
  apply skrel_split in S1 as [S1 S1'].
  destruct (ederiv_explained E s _ HE _ _ _ _ _ _ _ S2 Hg) as (es & X1 & X2 & X3 & X4); [lia|].
  destruct (ederiv_sorted E s _ HE _ _ _ _ _ _ _ S2 Hg) as [X5 X6]; [lia|].
  exists es. rewrite X2. repeat split; auto; try lia.
  - clear - S1 S1'. revert S1. induction S1' as [|o x ops sk Hl Hr IH]; simpl; intros S1; constructor.
    + injection S1 as S1 S2. red in Hl. unfold reports, item_of_op. simpl. rewrite S1, Hl. auto.
    + injection S1 as S1 S2. auto.
  - unfold reported_cost. rewrite S1. reflexivity.
Qed.

Lemma error_locs E n A (g : gram T V A) s rec mi get fmt r errs locof rec' :
  wf_env E -> wf g -> cohere get s locof -> lay_ok E g s locof ->
  parse E n g s rec mi get fmt = Ret r -> unwrap r rec' = Raises errs ->
  forall e, In e errs -> exists p, p <= List.length s /\ ei_loc e = locof p /\
    ei_loc_str e = fmt (locof p).
Proof.
  intros HE Hg Hco Hlay H Hu e Hin.
  assert (G : gok (exactpos s locof) g /\ forall d, gok (exactpos s locof) (E d)).
  { destruct Hlay as [L|[L1 L2]]; split; intros; apply gok_wf; auto. }
  destruct G as [G1 G2].
  pose proof (parse_good E n A g s rec mi get fmt r _ _ _ _
    (pos_system s get locof _ Hco (fun x => x)) G2 G1 (pos_init get locof) H) as R.
  assert (Hf : pr_fmt r = fmt).
  { destruct rec; [apply parse_full in H|apply parse_fast in H]; apply H. }
  unfold unwrap in Hu. rewrite Hf in Hu.
  destruct (pr_result r) as [o|er|rc]; [discriminate| |].
  - injection Hu as <-. destruct Hin as [<-|[]]. destruct R as (p & Hp & Hl).
    exists p. red in Hl. simpl. rewrite Hl. repeat split; auto; lia.
  - destruct R as [(p & Hp & Hl) R]. destruct (rc_reps rc) as [|x l] eqn:Hl'.
    + injection Hu as <-. destruct Hin as [<-|[]].
      exists p. red in Hl. simpl. rewrite Hl. repeat split; auto; lia.
    + destruct rec'; [discriminate|]. injection Hu as <-.
      assert (Hm : In (py_min x l) (x :: l)).
      { clear. revert x. induction l as [|y l IH]; intros x; simpl; auto.
        destruct (IH (if key_lt y x then y else x)) as [K|K]; [|auto].
        rewrite <- K. destruct (key_lt y x); auto. }
      destruct (R _ Hm) as [(sk & S1 & S2 & S3 & S4 & S5 & S6) _].
      apply skrel_split in S1 as [S1 S1'].
      destruct (ederiv_sorted E s _ HE _ _ _ _ _ _ _ S2 Hg) as [X5 X6]; [lia|].
      apply in_map_iff in Hin as (o & <- & Hin).
      assert (Hb : forall x, In x sk -> snd x <= List.length s).
      { clear - X5 X6. revert X5. generalize 0 as i.
        induction sk as [|[[k|lb] q] sk IH]; simpl; intros i Hs y Hy; [destruct Hy| |];
          destruct Hy as [<-|Hy]; simpl.
        - destruct Hs as (_ & _ & Hs). apply ops_sorted_le in Hs. lia.
        - destruct Hs as (_ & _ & Hs). eauto.
        - destruct Hs as (_ & Hs). apply ops_sorted_le in Hs. lia.
        - destruct Hs as (_ & Hs). eauto. }
      clear - S1' Hin Hb. induction S1' as [|o' x' ops sk' Hl0 Hr0 IH]; [destruct Hin|].
      destruct Hin as [->|Hin].
      * exists (snd x'). red in Hl0. unfold item_of_op. simpl. rewrite Hl0.
        repeat split; auto. apply Hb. simpl; auto.
      * apply IH; auto. intros y Hy. apply Hb. simpl; auto.
Qed.

(** *** C02 *)
Lemma unwrap_nonempty E n A (g : gram T V A) s rec mi get fmt r rec' errs :
  parse E n g s rec mi get fmt = Ret r -> unwrap r rec' = Raises errs -> errs <> [].
Proof.
  intros H Hu. unfold unwrap in Hu.
  destruct (pr_result r) as [o|e|rc] eqn:Hr; [discriminate|injection Hu as <-; discriminate|].
  destruct (rc_reps rc) as [|x l] eqn:Hl; [injection Hu as <-; discriminate|].
  destruct rec'; [discriminate|]. injection Hu as <-.
  destruct rec.
  - assert (Hi : exists rep, first_best (x :: l) rep /\ rep = py_min x l).
    { eexists; split; [|reflexivity]. apply py_min_first; intros;
        eapply parse_basic; eauto; rewrite Hl; simpl; auto. }
    destruct Hi as (rep & (l1 & l2 & E1 & _) & E2).
    assert (Hb : rep_basic A (py_min x l)).
    { eapply parse_basic; eauto. rewrite Hl, E1, <- E2. apply in_or_app; simpl; auto. }
    destruct Hb as (Hb & _). destruct (r_ops (py_min x l)); [contradiction|discriminate].
  - apply parse_fast in H as [_ [sr [H H']]]. destruct sr; rewrite Hr in H'; discriminate.
Qed.

(** *** C04 *)
Lemma parse_success E n A (g : gram T V A) s rec mi get fmt r o :
  wf_env E -> wf g -> parse E n g s rec mi get fmt = Ret r -> pr_result r = ROk o ->
  ok_pos o <= List.length s /\ ok_con o = Nat.ltb 0 (ok_pos o) /\
  lang E A g (map inl (slice s 0 (ok_pos o))) (ok_val o).
Proof.
  intros HE Hg H Hr.
  assert (G : forall A (g : gram T V A), wf g -> gok True g).
  { intros. apply gok_wf; auto. }
  pose proof (parse_good E n A g s rec mi get fmt r (fun _ _ => True) (fun _ _ => True)
    any_Cok True (any_system s True) (fun d => G _ _ (HE d)) (G _ _ Hg) I H) as R.
  rewrite Hr in R. destruct R as (R1 & R2 & R3 & _). repeat split; auto; try lia.
  eapply ederiv_sentence; eauto. lia.
Qed.

(** *** C09 *)
Definition ends_at {A} (s : list T) (r : res T A) : Prop :=
  match r with
  | ROk o => ok_pos o = List.length s
  | RErr _ => True
  | RRec rc => forall rep, In rep (rc_reps rc) -> r_pos rep = List.length s
  end.
Lemma ends_prepend {A} s x b (r : res T A) : ends_at s r -> ends_at s (res_prepend x b r).
Proof.
  destruct r; simpl; auto.
  - unfold ok_prepend. destruct (ok_con o); auto.
  - intros H rep Hin. apply in_map_iff in Hin as (r0 & <- & Hin). simpl. auto.
Qed.
Lemma ends_fmap {A B} s (f : A -> out B) (r : res T A) r' :
  ends_at s r -> res_fmap f r = Ret r' -> ends_at s r'.
Proof.
  destruct r; simpl; intros H Hf.
  - apply obind_ret in Hf as [o' [H1 Hf]]. injection Hf as <-. simpl.
    unfold ok_fmap in H1. apply obind_ret in H1 as [v [H2 H1]]. injection H1 as <-. exact H.
  - injection Hf as <-. exact I.
  - apply obind_ret in Hf as [o' [H1 Hf]]. injection Hf as <-.
    unfold rec_fmap in H1. apply obind_ret in H1 as [reps [H2 H1]]. injection H1 as <-.
    simpl. intros rep Hin. destruct (mapM_in' _ _ _ _ H2 Hin) as (x & Hx & Hf).
    unfold rep_fmap in Hf. apply obind_ret in Hf as [w [_ Hf]]. injection Hf as <-. simpl. auto.
Qed.
Lemma ends_eof s pos c ins rem r : @eof_full T s pos c ins rem = Ret r -> ends_at s r.
Proof.
  unfold eof_full. destruct (Nat.eqb_spec pos (List.length s)) as [->|Hne]; intros H.
  - injection H as <-. reflexivity.
  - destruct rem; injection H as <-; simpl; auto. intros rep [<-|[]]. reflexivity.
Qed.
Lemma seql_eof_ends E n A (g : gram T V A) s pos c ins rem r :
  full E n (seql g GEof) s pos c ins rem = Ret r -> ends_at s r.
Proof.
  destruct n as [|n]; [discriminate|]. unfold seql. cbn [full]. unfold seq_full. intros H.
  assert (Hq : forall pos c rem r, full E n GEof s pos c ins rem = Ret r -> ends_at s r).
  { destruct n; [discriminate|]. intros p' c' rem' r' Hr. eapply ends_eof; exact Hr. }
  apply obind_ret in H as [ra [Ha H]]. destruct ra as [o|e|rc].
  - apply obind_ret in H as [rb [Hb H]]. apply obind_ret in H as [rc [Hc H]].
    injection H as <-. apply ends_prepend. eapply ends_fmap; eauto.
  - injection H as <-. exact I.
  - apply continue_ret in H as (reps & Hm & ->). simpl. intros rep Hin.
    destruct (flat_mapM_in' _ _ _ _ Hm Hin) as (r1 & ys & Hin1 & H1 & H2).
    unfold cont_one in H1. apply obind_ret in H1 as [rb [Hb H1]]. apply Hq in Hb.
    destruct rb as [o|e|rb]; injection H1 as <-.
    + destruct H2 as [<-|[]]. exact Hb.
    + destruct H2.
    + apply in_map_iff in H2 as (rr & <- & Hrr). simpl. auto.
Qed.
Lemma parse_eof_ends E n A (g : gram T V A) s rec mi get fmt r :
  parse E n (seql g GEof) s rec mi get fmt = Ret r -> ends_at s (pr_result r).
Proof.
  intros H. destruct rec.
  - apply parse_full in H as [_ H]. eapply seql_eof_ends; eauto.
  - apply parse_fast in H as [_ [sr [H ->]]]. destruct sr as [o|e]; simpl; auto.
    pose proof (sim_fast_full E n A (seql g GEof) s 0 (init_ctx get) 0 None) as Hs.
    rewrite H in Hs. simpl in Hs. apply seql_eof_ends in Hs. exact Hs.
Qed.

(** *** C25 *)
Lemma marks_kept_ok E n A (g : gram T V A) s pos c o :
  wf_env E -> wf g -> pos <= List.length s ->
  fast E n g s pos c = Ret (SOk o) -> ctx_mark (ok_ctx o) = ctx_mark c.
Proof.
  intros HE Hg Hp H.
  apply (fast_good E s _ _ _ True (any_system s True)) in H; auto.
  - destruct H as (_ & _ & _ & _ & H). exact H.
  - intros d. apply gok_wf; auto.
  - apply gok_wf; auto.
  - exact I.
Qed.
Lemma marks_kept_rep E n A (g : gram T V A) s pos c ins rem rc rep :
  wf_env E -> wf g -> pos <= List.length s ->
  full E n g s pos c ins rem = Ret (RRec rc) -> In rep (rc_reps rc) ->
  ctx_mark (r_ctx rep) = ctx_mark c.
Proof.
  intros HE Hg Hp H Hin.
  apply (full_good E s _ _ _ True (any_system s True)) in H; auto.
  - destruct H as [_ H]. destruct (H _ Hin) as [(sk & _ & _ & _ & _ & _ & _ & H1) _]. exact H1.
  - intros d. apply gok_wf; auto.
  - apply gok_wf; auto.
  - exact I.
Qed.

End ApiProofs.
