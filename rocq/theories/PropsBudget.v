(** C08  max_insertions bounds insertions in a row. *)
From Verif Require Import Budget LexProofs Examples PropsLexer.

(** ** Specification *)
Definition loc_eqb (a b : loc) : bool :=
  (Z.eqb (loc_pos a) (loc_pos b) && Z.eqb (loc_line a) (loc_line b)
   && Z.eqb (loc_col a) (loc_col b))%bool.
(** the number of insertions reported at location [l] *)
Definition insertions_at (l : loc) (errs : list erroritem) : nat :=
  List.length (filter (fun e =>
    match ei_op e with Some (Insert _) => loc_eqb (ei_loc e) l | _ => false end) errs).
(** different positions have different locations *)
Definition distinct_locs {T} (s : list T) (locof : nat -> loc) : Prop :=
  forall p q, p <= List.length s -> q <= List.length s -> locof p = locof q -> p = q.

Lemma loc_eqb_eq a b : loc_eqb a b = true <-> a = b.
Proof.
  destruct a, b. unfold loc_eqb. simpl. rewrite !andb_true_iff, !Z.eqb_eq. split; [|intros H; injection H as -> -> ->; auto].
  intros [[-> ->] ->]. reflexivity.
Qed.

(** ** Proofs *)
Lemma exact_distinct {T} (s : list T) locof : exactpos s locof -> distinct_locs s locof.
Proof.
  intros [_ H] p q Hp Hq He. apply Nat2Z.inj. rewrite <- (H p Hp), <- (H q Hq), He. reflexivity.
Qed.

Lemma parse_budget {T V} (E : env T V) n A (g : gram T V A) s k get fmt r locof :
  wf_env E -> wf g -> cohere get s locof -> lay_ok E g s locof -> (0 <= k)%Z ->
  parse E n g s true k get fmt = Ret r ->
  forall rc rep, pr_result r = RRec rc -> In rep (rc_reps rc) ->
  exists sk, Forall2 (skrel (pos_locrel locof)) (map opskel (r_ops rep)) sk /\
    (forall x, In x sk -> snd x <= List.length s) /\ forall q, (ins_at q sk <= k)%Z.
Proof.
  intros HE Hg Hco Hlay Hk H rc rep Hr Hin.
  assert (G : gok (exactpos s locof) g /\ forall d, gok (exactpos s locof) (E d)).
  { destruct Hlay as [L|[L1 L2]]; split; intros; apply gok_wf; auto. }
  destruct G as [G1 G2]. apply parse_full in H as [_ H]. rewrite Hr in H.
  pose proof (pos_system s get locof _ Hco (fun x => x)) as CS.
  pose proof H as HG.
  eapply (full_budget E s _ _ _ _ CS G2) in H; auto; [|lia|apply pos_init|intros z Hz; injection Hz as <-; auto].
  eapply (full_good E s _ _ _ _ CS G2) in HG; auto; [|lia|apply pos_init].
  destruct HG as [_ HG]. destruct (HG rep Hin) as [(_ & _ & _ & _ & _ & HG' & _) _].
  destruct (H rep Hin) as (sk & K1 & K2 & _ & K3 & _). exists sk. split; auto. split.
  - intros x Hx. specialize (K2 x Hx). lia.
  - intros q. specialize (K3 q). unfold bud in K3. destruct (Nat.eqb q 0); auto.
Qed.

Lemma count_skel fmt locof s (Hd : forall p q, p <= s -> q <= s -> locof p = locof q -> p = q) ops sk :
  Forall2 (skrel (pos_locrel locof)) (map opskel ops) sk ->
  (forall x, In x sk -> snd x <= s) ->
  forall l, exists q, (Z.of_nat (insertions_at l (map (item_of_op fmt) ops)) <= ins_at q sk)%Z.
Proof.
  intros H Hs l.
  assert (Hq : (exists q, q <= s /\ locof q = l) \/ (forall q, q <= s -> locof q <> l)).
  { clear - s. induction s as [|m IH].
    - destruct (loc_eqb (locof 0) l) eqn:Hl.
      + left. exists 0. split; auto. apply loc_eqb_eq; auto.
      + right. intros q Hq E. assert (q = 0) by lia. subst q. apply loc_eqb_eq in E. congruence.
    - destruct IH as [(q & H1 & H2)|IH]; [left; exists q; split; auto|].
      destruct (loc_eqb (locof (S m)) l) eqn:Hl.
      + left. exists (S m). split; auto. apply loc_eqb_eq; auto.
      + right. intros q Hq E. destruct (Nat.eq_dec q (S m)) as [->|Hn]; [apply loc_eqb_eq in E; congruence|].
        apply (IH q); auto. lia. }
  destruct Hq as [(q & Hq & Hl)|Hq].
  - exists q. unfold insertions_at. revert sk H Hs.
    induction ops as [|o ops IH]; intros sk H Hs; inversion H as [|? [o' p] ? sk' H1 H2]; subst; cbn [ins_at map filter].
    + simpl. lia.
    + specialize (IH _ H2 (fun x Hx => Hs x (or_intror Hx))).
      destruct H1 as [H1 H3]. unfold opskel, item_of_op in *. cbn [fst snd ei_op ei_loc] in *.
      red in H3. subst o'. pose proof (Hs _ (or_introl eq_refl)) as Hp. simpl in Hp.
      destruct (op_op o) as [c|lab]; cbn [is_ins andb]; [lia|].
      rewrite H3. destruct (loc_eqb (locof p) (locof q)) eqn:El.
      * apply loc_eqb_eq in El. apply Hd in El; auto. subst p. rewrite Nat.eqb_refl.
        cbn [List.length]. lia.
      * destruct (Nat.eqb_spec p q) as [->|Hn]; lia.
  - exists 0. assert (insertions_at l (map (item_of_op fmt) ops) = 0) as ->.
    { unfold insertions_at. revert sk H Hs.
      induction ops as [|o ops IH]; intros sk H Hs; inversion H as [|? [o' p] ? sk' H1 H2]; subst; cbn [map filter]; auto.
      specialize (IH _ H2 (fun x Hx => Hs x (or_intror Hx))).
      destruct H1 as [H1 H3]. unfold opskel, item_of_op in *. cbn [fst snd ei_op ei_loc] in *.
      red in H3. pose proof (Hs _ (or_introl eq_refl)) as Hp. simpl in Hp.
      destruct (op_op o) as [c|lab]; auto. rewrite H3.
      destruct (loc_eqb (locof p) l) eqn:El; auto. apply loc_eqb_eq in El. destruct (Hq p Hp El). }
    apply ins_at_nonneg.
Qed.

(** ** C08 *)
(** every repair offered *)
Lemma repairs_bounded :
  forall T V (E : env T V) n A (g : gram T V A) s k get fmt r locof,
  wf_env E -> wf g -> cohere get s locof -> lay_ok E g s locof -> distinct_locs s locof ->
  (0 <= k)%Z -> parse E n g s true k get fmt = Ret r ->
  forall rc rep, pr_result r = RRec rc -> In rep (rc_reps rc) ->
  forall l, (Z.of_nat (insertions_at l (map (item_of_op fmt) (r_ops rep))) <= k)%Z.
Proof.
  intros T V E n A g s k get fmt r locof HE Hg Hco Hlay Hd Hk H rc rep Hr Hin l.
  destruct (parse_budget _ _ _ _ _ _ _ _ _ _ HE Hg Hco Hlay Hk H _ _ Hr Hin) as (sk & K1 & K2 & K3).
  destruct (count_skel fmt locof (List.length s) Hd _ _ K1 K2 l) as [q Hq].
  specialize (K3 q). lia.
Qed.
Theorem C08_repairs_bounded :
  forall T V (E : env T V) n A (g : gram T V A) s k get fmt r locof,
  wf_env E -> wf g -> cohere get s locof -> lay_ok E g s locof -> distinct_locs s locof ->
  (0 <= k)%Z -> parse E n g s true k get fmt = Ret r ->
  forall rc rep, pr_result r = RRec rc -> In rep (rc_reps rc) ->
  forall l, (Z.of_nat (List.length (filter (fun o => match op_op o with Insert _ => loc_eqb (op_loc o) l | _ => false end) (r_ops rep))) <= k)%Z.
Proof.
  intros T V E n A g s k get fmt r locof HE Hg Hco Hlay Hd Hk H rc rep Hr Hin l.
  replace (List.length (filter _ (r_ops rep))) with (insertions_at l (map (item_of_op fmt) (r_ops rep))).
  2: { unfold insertions_at. clear. induction (r_ops rep) as [|o os IH]; [reflexivity|]. cbn [map filter].
       change (ei_op (item_of_op fmt o)) with (Some (op_op o)). change (ei_loc (item_of_op fmt o)) with (op_loc o).
       destruct (op_op o); [exact IH|]. destruct (loc_eqb (op_loc o) l); cbn [List.length]; congruence. }
  eapply repairs_bounded; eauto.
Qed.
Print Assumptions C08_repairs_bounded.

(** the errors reported *)
Theorem C08_insertions_bounded :
  forall T V (E : env T V) n A (g : gram T V A) s k get fmt r locof errs,
  wf_env E -> wf g -> cohere get s locof -> lay_ok E g s locof -> distinct_locs s locof ->
  (0 <= k)%Z -> parse E n g s true k get fmt = Ret r -> unwrap r false = Raises errs ->
  forall l, (Z.of_nat (insertions_at l errs) <= k)%Z.
Proof.
  intros T V E n A g s k get fmt r locof errs HE Hg Hco Hlay Hd Hk H Hu l.
  destruct (pr_result r) as [o|e|rc] eqn:Hr.
  - unfold unwrap in Hu. rewrite Hr in Hu. discriminate.
  - unfold unwrap in Hu. rewrite Hr in Hu. injection Hu as <-. simpl. lia.
  - destruct (rc_reps rc) as [|x reps] eqn:Hx.
    + unfold unwrap in Hu. rewrite Hr, Hx in Hu. injection Hu as <-. simpl. lia.
    + assert (Hv : exists v, unwrap r true = Returns v).
      { unfold unwrap. rewrite Hr, Hx. eauto. }
      destruct Hv as [v Hv].
      destruct (unwrap_repair _ _ _ _ _ _ _ _ _ _ _ H Hv Hu) as (rc' & rep & Hr' & Hin & _ & ->).
      eapply repairs_bounded; eauto.
Qed.
Print Assumptions C08_insertions_bounded.

Corollary C08_default :
  forall T V (E : env T V) n A (g : gram T V A) s k fmt r errs,
  wf_env E -> wf g -> (0 <= k)%Z ->
  parse E n g s true k default_get_loc fmt = Ret r -> unwrap r false = Raises errs ->
  forall l, (Z.of_nat (insertions_at l errs) <= k)%Z.
Proof.
  intros T V E n A g s k fmt r errs HE Hg Hk H Hu l.
  eapply C08_insertions_bounded; [exact HE|exact Hg|apply (default_cohere s)| | | | |]; eauto.
  - left. apply default_exact.
  - apply exact_distinct, default_exact.
Qed.
Corollary C08_scannerless :
  forall V (E : env char V) n A (g : gram char V A) s r errs,
  wf_env E -> wf g ->
  scannerless_parse E n g s true = Ret r -> unwrap r false = Raises errs ->
  forall l, insertions_at l errs <= 5.
Proof.
  intros V E n A g s r errs HE Hg H Hu l. apply Nat2Z.inj_le. change (Z.of_nat 5) with 5%Z.
  eapply C08_insertions_bounded; [exact HE|exact Hg|apply (scannerless_cohere s)| | | |exact H|]; eauto; [| |lia].
  - left. apply scannerless_exact.
  - apply exact_distinct, scannerless_exact.
Qed.

(** tokens in source order, not empty *)
Fixpoint tokens_from (k : Z) (l : list token) : Prop :=
  match l with
  | [] => True
  | t :: l => (k <= loc_pos (tk_start t) < loc_pos (tk_end t))%Z /\ tokens_from (loc_pos (tk_end t)) l
  end.
Lemma tokens_from_le k k' l : (k' <= k)%Z -> tokens_from k l -> tokens_from k' l.
Proof. destruct l as [|t l]; simpl; auto. intros Hk [H1 H2]. split; auto. lia. Qed.
Lemma lex_tokens_from spec src (Hwf : lex_wf spec src) n toks :
  split_tokens n src spec = Ret (LexOk toks) -> tokens_from 0 toks.
Proof.
  intros H. assert (Hd : forall l q g, lex_run spec src 0 l q -> q < List.length src -> spec src q <> Some (q, g)).
  { apply (C30_lexer_terminates_iff spec src Hwf). eauto. }
  destruct (proj1 (C28_lexer_tiles spec src Hwf toks) (ex_intro _ n H)) as (l & Hr & _ & ->).
  clear H. change 0%Z with (Z.of_nat 0).
  assert (Hl : 0 <= List.length src) by lia.
  assert (G : forall p l q, lex_run spec src p l q ->
    (forall l q g, lex_run spec src p l q -> q < List.length src -> spec src q <> Some (q, g)) ->
    p <= List.length src -> tokens_from (Z.of_nat p) (flat_map (piece_token src) l)); [|eauto].
  clear - Hwf. intros p l q Hr. induction Hr as [p|p e g l q Hp Hs Hr IH]; intros Hd Hl; cbn [flat_map]; [exact I|].
  pose proof (Hwf _ _ _ Hl Hs) as He.
  assert (e <> p) by (intros ->; apply (Hd [] p g); [constructor|auto|auto]).
  assert (K : tokens_from (Z.of_nat e) (flat_map (piece_token src) l)).
  { apply IH; [|lia]. intros l' q' g' Hr' Hq'. apply (Hd ((p, e, g) :: l') q' g'); auto. econstructor; eauto. }
  destruct g as [[kd v]|]; cbn [piece_token app].
  - cbn [tokens_from tk_start tk_end true_loc loc_pos]. split; [lia|exact K].
  - eapply tokens_from_le; [|exact K]. lia.
Qed.
Lemma tokens_from_locs l : forall k, tokens_from k l -> forall p q, p < q <= List.length l ->
  (loc_pos (loc_from_stream l p) < loc_pos (loc_from_stream l q))%Z.
Proof.
  assert (Hge : forall l k, tokens_from k l -> l <> [] -> forall q, q <= List.length l ->
     (k <= loc_pos (loc_from_stream l q))%Z).
  { clear l. induction l as [|t l IH]; intros k H Hn q Hq; [destruct (Hn eq_refl)|]. destruct H as [H1 H2].
    destruct q as [|q]; [unfold loc_from_stream; simpl; lia|].
    destruct l as [|t' l].
    - simpl in Hq. assert (q = 0) by lia. subst q. unfold loc_from_stream. simpl. lia.
    - assert (Hs : loc_from_stream (t :: t' :: l) (S q) = loc_from_stream (t' :: l) q).
      { unfold loc_from_stream. cbn [nth_error]. destruct (nth_error (t' :: l) q); auto.
        cbn [rev]. rewrite <- app_assoc. destruct (rev l); reflexivity. }
      rewrite Hs. specialize (IH _ H2 ltac:(discriminate) q). simpl in Hq, IH. specialize (IH ltac:(lia)). lia. }
  induction l as [|t l IH]; intros k H p q Hp; [simpl in Hp; lia|].
  destruct H as [H1 H2]. destruct q as [|q]; [lia|].
  assert (Hs : l <> [] -> forall q, loc_from_stream (t :: l) (S q) = loc_from_stream l q).
  { intros Hn q'. unfold loc_from_stream. cbn [nth_error]. destruct (nth_error l q'); auto.
    cbn [rev]. destruct (rev l) eqn:Hr; [|reflexivity].
    apply (f_equal (@rev _)) in Hr. rewrite rev_involutive in Hr. contradiction. }
  destruct l as [|t' l].
  - simpl in Hp. assert (q = 0 /\ p = 0) as [-> ->] by lia. unfold loc_from_stream. simpl. lia.
  - rewrite (Hs ltac:(discriminate) q). destruct p as [|p].
    + assert (q <= List.length (t' :: l)) by (simpl in *; lia).
      pose proof (Hge _ _ H2 ltac:(discriminate) q H). unfold loc_from_stream at 1. cbn [nth_error]. lia.
    + rewrite (Hs ltac:(discriminate) p). eapply IH; [exact H2|simpl in *; lia].
Qed.
Corollary C08_lexer :
  forall V (E : env token V) n A (g : gram token V A) spec src m toks r errs,
  lex_wf spec src -> split_tokens m src spec = Ret (LexOk toks) ->
  wf_env E -> wf g -> no_layout g -> (forall d, no_layout (E d)) ->
  lexer_parse E n g toks true = Ret r -> unwrap r false = Raises errs ->
  forall l, insertions_at l errs <= 5.
Proof.
  intros V E n A g spec src m toks r errs Hw Hl HE Hg L1 L2 H Hu l.
  apply Nat2Z.inj_le. change (Z.of_nat 5) with 5%Z.
  eapply C08_insertions_bounded; [exact HE|exact Hg|apply (lexer_cohere toks)| | | |exact H|]; eauto; [| |lia].
  - right. auto.
  - intros p q Hp Hq He. pose proof (lex_tokens_from _ _ Hw _ _ Hl) as Ht.
    destruct (Nat.lt_trichotomy p q) as [K|[K|K]]; auto.
    + pose proof (tokens_from_locs _ _ Ht p q ltac:(lia)). rewrite He in *. lia.
    + pose proof (tokens_from_locs _ _ Ht q p ltac:(lia)). rewrite He in *. lia.
Qed.
Print Assumptions C08_default.
Print Assumptions C08_scannerless.
Print Assumptions C08_lexer.

(** [max_insertions = 0]: nothing is inserted *)
Theorem C08_zero :
  forall T V (E : env T V) n A (g : gram T V A) s get fmt r locof errs,
  wf_env E -> wf g -> cohere get s locof -> lay_ok E g s locof -> distinct_locs s locof ->
  parse E n g s true 0 get fmt = Ret r -> unwrap r false = Raises errs ->
  forall e x, In e errs -> ei_op e <> Some (Insert x).
Proof.
  intros T V E n A g s get fmt r locof errs HE Hg Hco Hlay Hd H Hu e x Hin Hx.
  pose proof (C08_insertions_bounded _ _ _ _ _ _ _ _ _ _ _ _ _ HE Hg Hco Hlay Hd (Z.le_refl 0) H Hu (ei_loc e)) as K.
  assert (Hf : In e (filter (fun e0 => match ei_op e0 with Some (Insert _) => loc_eqb (ei_loc e0) (ei_loc e) | _ => false end) errs)).
  { apply filter_In. split; auto. rewrite Hx. apply loc_eqb_eq. reflexivity. }
  unfold insertions_at in K. destruct (filter _ errs); [destruct Hf|]. simpl in K. lia.
Qed.
Print Assumptions C08_zero.

(** A negative [max_insertions] is no bound: for every N there is a parser that
    reports N + 1 insertions at one position. *)
Fixpoint bg_syms (N : nat) : ex_gram char :=
  match N with 0 => ex_sym "a" | S N => seqr (ex_sym "a") (bg_syms N) end.
Lemma bg_sym n c ins m : (m < 0)%Z ->
  full lay_E (S n) (ex_sym "a") [] 0 c ins (Some m) =
  Ret (RRec (Recd [make_insert m (ex_ch "a") 0 c (get_loc c [] 0) "'a'" ["'a'"%string]] None
    (get_loc c [] 0) ["'a'"%string] false)).
Proof.
  intros Hm. cbn [full ex_sym]. unfold sym_full. simpl. destruct (Z.eqb_spec m 0); [lia|]. reflexivity.
Qed.
Lemma bg_run N : forall n c ins m, N < n -> (m < 0)%Z ->
  exists rep, full lay_E n (bg_syms N) [] 0 c ins (Some m) =
    Ret (RRec (Recd [rep] None (get_loc c [] 0) ["'a'"%string] false)) /\
    map opskel (r_ops rep) = repeat (Insert "'a'", get_loc c [] 0) (S N) /\
    r_pos rep = 0 /\ r_ctx rep = c /\ (r_ins rep < 0)%Z.
Proof.
  induction N as [|N IH]; intros n c ins m Hn Hm.
  - destruct n as [|n]; [lia|]. eexists. split; [apply bg_sym; auto|].
    simpl. repeat split. lia.
  - destruct n as [|[|n]]; [lia|lia|]. 
    destruct (IH (S n) c ins (m - 1)%Z) as (rep & H1 & H2 & H3 & H4 & H5); [lia|lia|].
    eexists. split.
    + assert (Heq : full lay_E (S (S n)) (bg_syms (S N)) [] 0 c ins (Some m) =
        seq_full (full lay_E (S n) (ex_sym "a")) (full lay_E (S n) (bg_syms N)) (fun _ r => r)
          [] 0 c ins (Some m)) by reflexivity.
      rewrite Heq. clear Heq. unfold seq_full. rewrite bg_sym by lia. cbn [obind]. unfold continue_parse, rc_reps, flat_mapM, cont_one.
      cbn [r_val r_pos r_ctx r_ins make_insert].
      rewrite H1. cbn [obind map rc_reps app rc_min rc_loc rc_exp rc_con]. reflexivity.
    + cbn [r_ops cont_rec r_pos r_ctx r_ins]. rewrite join_ops_skel, H2. auto.
Qed.
Theorem C08_negative_unbounded :
  forall k N, (k < 0)%Z ->
  exists n r errs, parse lay_E n (bg_syms N) [] true k default_get_loc default_fmt_loc = Ret r /\
    unwrap r false = Raises errs /\ insertions_at (Loc 0 0 0) errs = S N.
Proof.
  intros k N Hk. destruct (bg_run N (S N) (init_ctx default_get_loc) k k ltac:(lia) Hk) as (rep & H1 & H2 & _).
  eexists (S N), _, _. split; [unfold parse; rewrite H1; reflexivity|]. split; [reflexivity|].
  cbn [py_min pr_fmt]. unfold insertions_at. revert H2. generalize (S N) as M. generalize (r_ops rep) as ops.
  intros ops M. revert ops. induction M as [|M IH]; intros [|o ops] H2; try discriminate; auto.
  injection H2 as H3 H4 H5. cbn [map filter].
  change (ei_op (item_of_op default_fmt_loc o)) with (Some (op_op o)).
  change (ei_loc (item_of_op default_fmt_loc o)) with (op_loc o).
  rewrite H3, H4. cbn [loc_eqb default_get_loc loc_pos loc_line loc_col Z.of_nat Z.eqb andb List.length].
  f_equal. apply IH. exact H5.
Qed.
Print Assumptions C08_negative_unbounded.

(** the bound is reached, and a smaller one changes the outcome *)
Example C08_case :
  wf_env lay_E /\ wf (bg_syms 4) /\
  (exists r errs, scannerless_parse lay_E 30 (bg_syms 4) [] true = Ret r /\
     unwrap r false = Raises errs /\ insertions_at (Loc 0 0 0) errs = 5) /\
  (exists r e, scannerless_parse lay_E 30 (bg_syms 5) [] true = Ret r /\
     unwrap r false = Raises [e] /\ ei_op e = None).
Proof.
  split; [intros d; solve_gall|]. split; [simpl; solve_gall|].
  split; do 2 eexists; (split; [vm_compute; reflexivity|]); split; vm_compute; reflexivity.
Qed.
