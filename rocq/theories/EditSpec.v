(** From edit derivations to sentences, edit scripts and sorted operations;
    the context systems of the library's location functions. *)
From Verif Require Export EditInv.

Lemma skipn_skipn {X} (l : list X) : forall a b, skipn a (skipn b l) = skipn (b + a) l.
Proof.
  induction l as [|x l IH]; intros a b; destruct b; simpl; auto; apply skipn_nil.
Qed.
Lemma slice_app {X} (s : list X) i j k :
  i <= j -> j <= k -> slice s i j ++ slice s j k = slice s i k.
Proof.
  intros Hij Hjk. unfold slice.
  replace (k - i) with ((j - i) + (k - j)) by lia.
  rewrite <- (firstn_skipn (j - i) (firstn (j - i + (k - j)) (skipn i s))).
  f_equal.
  - rewrite firstn_firstn. f_equal. lia.
  - rewrite skipn_firstn_comm. f_equal; [lia|].
    rewrite skipn_skipn. f_equal. lia.
Qed.
Lemma slice_len {X} (s : list X) i j :
  j <= List.length s -> List.length (slice s i j) = j - i.
Proof. intros H. unfold slice. rewrite firstn_length, skipn_length. lia. Qed.
Lemma slice_nil {X} (s : list X) i : slice s i i = [].
Proof. unfold slice. rewrite Nat.sub_diag. reflexivity. Qed.
Lemma slice_one {X} (s : list X) i t : nth_error s i = Some t -> slice s i (i + 1) = [t].
Proof.
  intros H. unfold slice. replace (i + 1 - i) with 1 by lia.
  revert s H. induction i as [|i IH]; intros [|x s] H; simpl in *; try discriminate.
  - injection H as ->. reflexivity.
  - apply IH; auto.
Qed.

Section EditSpec.
Context {T : Type} {V : nat -> Type}.
Implicit Types (s : list T).

Lemma ops_sorted_le i j (l : list (rop * nat)) : ops_sorted i j l -> i <= j.
Proof.
  revert i. induction l as [|[[n|x] p] l IH]; simpl; intros i H; auto.
  - destruct H as (H1 & H2 & H3). apply IH in H3. lia.
  - destruct H as (H1 & H3). apply IH in H3. lia.
Qed.
Lemma ops_sorted_start i i' j (l : list (rop * nat)) :
  i' <= i -> ops_sorted i j l -> ops_sorted i' j l.
Proof.
  destruct l as [|[[n|x] p] l]; simpl; intros; intuition lia.
Qed.
Lemma ops_sorted_app i j k l1 l2 :
  ops_sorted i j l1 -> ops_sorted j k l2 -> ops_sorted i k (l1 ++ l2).
Proof.
  revert i. induction l1 as [|[[n|x] p] l IH]; simpl; intros i H1 H2.
  - eapply ops_sorted_start; eauto.
  - intuition.
  - intuition.
Qed.

Lemma ederiv_sorted (E : env T V) s col : wf_env E ->
  forall A (g : gram T V A) m i j ops v,
  ederiv E s col A g m i j ops v -> wf g -> i <= List.length s ->
  ops_sorted i j ops /\ j <= List.length s.
Proof.
  intros HE A g m i j ops v H.
  induction H; intros Hg Hi;
    try (split; [simpl|]; auto; lia);
    try (apply IHederiv; auto; apply Hg).
  all: try (match goal with H : nth_error _ _ = Some _ |- _ =>
        assert (_ < List.length s) by (apply nth_error_Some; rewrite H; discriminate) end;
        simpl; csplit; lia).
  - pose proof (starts_len s teq x i Hi H0). simpl; lia.
  - assert (Hk : k <= List.length s) by lia.
    pose proof (starts_len s teq x k Hk H1). simpl; lia.
  - destruct Hg as [Hg _]. specialize (Hg _ _ _ _ Hi H0). simpl; lia.
  - destruct Hg as [Hg _]. specialize (Hg _ _ _ _ H0 H1). simpl; lia.
  - destruct IHederiv1 as [H1 H2]; auto; [apply Hg|].
    destruct IHederiv2 as [H3 H4]; auto; [apply Hg|].
    split; auto. eapply ops_sorted_app; eauto.
  - destruct IHederiv1 as [H1 H2]; auto; [apply Hg|].
    destruct IHederiv2 as [H3 H4]; auto; [apply Hg|].
    split; auto. eapply ops_sorted_app; eauto.
  - destruct IHederiv1 as [H1 H2]; auto; [apply Hg|].
    destruct IHederiv2 as [H3 H4]; auto.
    split; auto. eapply ops_sorted_app; eauto.
Qed.

(** ** Edit scripts *)
Lemma edits_in_app (a b : list (edit T)) : edits_in (a ++ b) = edits_in a ++ edits_in b.
Proof. unfold edits_in. apply flat_map_app. Qed.
Lemma edits_out_app (a b : list (edit T)) : edits_out (a ++ b) = edits_out a ++ edits_out b.
Proof. unfold edits_out. apply flat_map_app. Qed.
Lemma edits_ops_app i (a b : list (edit T)) :
  edits_ops i (a ++ b) = edits_ops i a ++ edits_ops (i + List.length (edits_in a)) b.
Proof.
  revert i. induction a as [|e a IH]; simpl; intros i.
  - f_equal. lia.
  - destruct e as [t|ts|l w]; simpl.
    + rewrite IH. f_equal. f_equal. lia.
    + rewrite IH, app_length. do 2 f_equal. f_equal. lia.
    + rewrite IH. reflexivity.
Qed.
Lemma edits_keep (w : list T) i :
  edits_in (map EKeep w) = w /\ edits_out (map EKeep w) = map inl w /\
  edits_ops i (map EKeep w) = [].
Proof.
  revert i. induction w as [|t w IH]; simpl; intros i; auto.
  destruct (IH (i + 1)) as (H1 & H2 & H3). unfold edits_in, edits_out in *. simpl.
  rewrite H1, H2, H3. auto.
Qed.

Definition explains (E : env T V) s {A} (g : gram T V A) i j ops v (es : list (edit T)) : Prop :=
  edits_in es = slice s i j /\ edits_ops i es = ops /\ lang E A g (edits_out es) v /\
  edits_from E g es.

Lemma prefix_forall2 (teq : T -> T -> bool) x l :
  is_prefix teq x l = true ->
  Forall2 (fun a b => teq a b = true) (firstn (List.length x) l) x.
Proof.
  revert l. induction x as [|a x IH]; intros [|b l]; simpl; intros H; try discriminate; auto.
  apply andb_true_iff in H as [H1 H2]. constructor; auto.
Qed.
Lemma starts_slice (teq : T -> T -> bool) x s i :
  starts_with teq x s i = true ->
  Forall2 (fun a b => teq a b = true) (slice s i (i + List.length x)) x.
Proof.
  intros H. apply prefix_forall2 in H. unfold slice.
  replace (i + List.length x - i) with (List.length x) by lia. exact H.
Qed.

Lemma slice_split (s : list T) i k j : i <= k -> k <= j ->
  slice s i j = slice s i k ++ slice s k j.
Proof. intros. symmetry. apply slice_app; auto. Qed.

Lemma forall2_refl_lit (teq : T -> T -> bool) x :
  (forall a, In a x -> teq a a = true) -> Forall2 (fun a b => teq a b = true) x x.
Proof. induction x; intros H; constructor; [apply H; left; auto|apply IHx; intros; apply H; right; auto]. Qed.

(** composition of explained parts *)
Lemma explains_app (E : env T V) s {A B C} (p : gram T V A) (q : gram T V B) (r : gram T V C)
    i j k ops1 ops2 v w u es1 es2 :
  i <= j -> j <= k -> j <= List.length s ->
  (forall w1 w2, lang E A p w1 v -> lang E B q w2 w -> lang E C r (w1 ++ w2) u) ->
  (forall D (x : gram T V D), occurs E x A p -> occurs E x C r) ->
  (forall D (x : gram T V D), occurs E x B q -> occurs E x C r) ->
  explains E s p i j ops1 v es1 -> explains E s q j k ops2 w es2 ->
  explains E s r i k (ops1 ++ ops2) u (es1 ++ es2).
Proof.
  intros Hij Hjk Hj HL O1 O2 (H1 & H2 & H3 & H4) (K1 & K2 & K3 & K4). unfold explains.
  rewrite edits_in_app, edits_out_app, edits_ops_app, H1, K1, H2, slice_len by auto.
  replace (i + (j - i)) with j by lia. rewrite K2.
  split; [apply slice_app; auto|]. split; auto. split; auto.
  intros l x Hin. apply in_app_or in Hin as [Hin|Hin].
  - destruct (H4 _ _ Hin) as (D & n & Ho & Hn). exists D, n; auto.
  - destruct (K4 _ _ Hin) as (D & n & Ho & Hn). exists D, n; auto.
Qed.

Lemma explains_skip (E : env T V) s {A} (g : gram T V A) i k j ops v es :
  i < k -> k <= j -> k <= List.length s ->
  explains E s g k j ops v es ->
  explains E s g i j ((Skip (k - i), i) :: ops) v (ESkip (slice s i k) :: es).
Proof.
  intros Hik Hkj Hk (H1 & H2 & H3 & H4). unfold explains, edits_in, edits_out in *. simpl.
  rewrite slice_len by auto. csplit; auto.
  - rewrite H1. apply slice_app; lia.
  - rewrite <- H2. do 2 f_equal; lia.
  - intros l w [Hin|Hin]; [discriminate|auto].
Qed.

Lemma explains_keep (E : env T V) s {A} (g : gram T V A) i j v :
  lang E A g (map inl (slice s i j)) v ->
  explains E s g i j [] v (map EKeep (slice s i j)).
Proof.
  intros H. destruct (edits_keep (slice s i j) i) as (H1 & H2 & H3).
  unfold explains. rewrite H1, H2, H3. csplit; auto.
  intros l w Hin. apply in_map_iff in Hin as (t & Ht & _). discriminate.
Qed.
Lemma explains_nil (E : env T V) s {A} (g : gram T V A) i v :
  lang E A g [] v -> explains E s g i i [] v [].
Proof.
  intros H. pose proof (explains_keep E s g i i v) as K. rewrite slice_nil in K. apply K, H.
Qed.

Lemma explains_imp (E : env T V) s {A B} (p : gram T V A) (q : gram T V B) i j ops v v' es :
  (forall w, lang E A p w v -> lang E B q w v') ->
  (forall D (x : gram T V D), occurs E x A p -> occurs E x B q) ->
  explains E s p i j ops v es -> explains E s q i j ops v' es.
Proof.
  intros H O (H1 & H2 & H3 & H4). unfold explains. csplit; auto.
  intros l w Hin. destruct (H4 _ _ Hin) as (D & n & Ho & Hn). exists D, n; auto.
Qed.

Lemma explains_ins (E : env T V) s {A} (g : gram T V A) i l w v :
  lang E A g w v -> insert_node g l w -> explains E s g i i [(Insert l, i)] v [EIns l w].
Proof.
  intros H Hn. unfold explains, edits_in, edits_out. simpl. rewrite slice_nil, app_nil_r.
  csplit; auto. intros l' w' [Hin|[]]. injection Hin as <- <-. exists A, g. split; auto. constructor.
Qed.

Lemma nth_len (s : list T) i t : nth_error s i = Some t -> i < List.length s.
Proof. intros H. apply nth_error_Some. congruence. Qed.

Theorem ederiv_explained (E : env T V) s col : wf_env E ->
  forall A (g : gram T V A) m i j ops v,
  ederiv E s col A g m i j ops v -> wf g -> i <= List.length s ->
  exists es, explains E s g i j ops v es.
Proof.
  intros HE A g m i j ops v H. induction H; intros Hg Hi.
  - exists []. apply explains_nil. constructor.
  - exists []. apply explains_nil. constructor; auto.
  - exists []. apply explains_nil. constructor.
  - eexists. apply explains_skip with (es := []); auto; try lia.
    apply explains_nil. constructor.
  - eexists. apply explains_keep. rewrite (slice_one _ _ _ H). constructor; auto.
  - pose proof (nth_len _ _ _ H0). eexists. apply explains_skip; try lia.
    apply explains_keep. rewrite (slice_one _ _ _ H0). constructor; auto.
  - eexists. apply explains_keep. rewrite (slice_one _ _ _ H). constructor; auto.
  - pose proof (nth_len _ _ _ H0). eexists. apply explains_skip; try lia.
    apply explains_keep. rewrite (slice_one _ _ _ H0). constructor; auto.
  - exists [EIns l [inl x]]. apply explains_ins; [constructor; apply Hg|simpl; auto].
  - eexists. apply explains_keep. constructor. apply starts_slice; auto.
  - eexists. apply explains_skip; try lia.
    apply explains_keep. constructor. apply starts_slice; auto.
  - exists [EIns l (map inl x)]. apply explains_ins; [constructor|simpl; auto].
    apply forall2_refl_lit. apply Hg.
  - eexists. apply explains_keep. eapply la_re; eauto.
  - destruct Hg as [Hg _]. pose proof (Hg _ _ _ _ H0 H1).
    eexists. apply explains_skip; try lia. apply explains_keep. eapply la_re; eauto.
  - destruct IHederiv as [es He]; auto; [apply Hg|]. exists es.
    eapply explains_imp; [| |exact He]; [intros; eapply la_fmap; eauto|intros; apply oc_fmap; assumption].
  - destruct IHederiv as [es He]; auto; [apply Hg|]. exists es.
    eapply explains_imp; [| |exact He]; [intros; apply la_alt_l; auto|intros; apply oc_alt_l; assumption].
  - destruct IHederiv as [es He]; auto; [apply Hg|]. exists es.
    eapply explains_imp; [| |exact He]; [intros; apply la_alt_r; auto|intros; apply oc_alt_r; assumption].
  - destruct (ederiv_sorted E s col HE _ _ _ _ _ _ _ H) as [S1 S2]; auto; [apply Hg|].
    destruct (ederiv_sorted E s col HE _ _ _ _ _ _ _ H0) as [S3 S4]; auto; [apply Hg|].
    destruct IHederiv1 as [es1 He1]; auto; [apply Hg|].
    destruct IHederiv2 as [es2 He2]; auto; [apply Hg|].
    exists (es1 ++ es2). eapply explains_app; [| | | | | |exact He1|exact He2];
      eauto using ops_sorted_le; [intros; eapply la_bind; eauto|intros; apply oc_bind_l; assumption|intros; eapply oc_bind_r; eassumption].
  - destruct (ederiv_sorted E s col HE _ _ _ _ _ _ _ H) as [S1 S2]; auto; [apply Hg|].
    destruct (ederiv_sorted E s col HE _ _ _ _ _ _ _ H0) as [S3 S4]; auto; [apply Hg|].
    destruct IHederiv1 as [es1 He1]; auto; [apply Hg|].
    destruct IHederiv2 as [es2 He2]; auto; [apply Hg|].
    exists (es1 ++ es2). eapply explains_app; [| | | | | |exact He1|exact He2];
      eauto using ops_sorted_le; [intros; eapply la_seq; eauto|intros; apply oc_seq_l; assumption|intros; eapply oc_seq_r; eassumption].
  - exists []. apply explains_nil. constructor.
  - destruct IHederiv as [es He]; auto; [apply Hg|]. exists es.
    eapply explains_imp; [| |exact He]; [intros; apply la_maybe_some; auto|intros; apply oc_maybe; assumption].
  - exists []. apply explains_nil. constructor.
  - destruct (ederiv_sorted E s col HE _ _ _ _ _ _ _ H) as [S1 S2]; auto; [apply Hg|].
    destruct (ederiv_sorted E s col HE _ _ _ _ _ _ _ H0) as [S3 S4]; auto.
    destruct IHederiv1 as [es1 He1]; auto; [apply Hg|].
    destruct IHederiv2 as [es2 He2]; auto.
    exists (es1 ++ es2). eapply explains_app; [| | | | | |exact He1|exact He2];
      eauto using ops_sorted_le; [intros; eapply la_many_cons; eauto|intros; apply oc_many; assumption].
  - destruct IHederiv as [es He]; auto; [apply Hg|]. exists es.
    eapply explains_imp; [| |exact He]; [intros; apply la_attempt; auto|intros; apply oc_attempt; assumption].
  - destruct IHederiv as [es He]; auto; [apply Hg|]. exists es.
    eapply explains_imp; [| |exact He]; [intros; apply la_label; auto|intros; apply oc_label; assumption].
  - destruct IHederiv as [es He]; auto; [apply Hg|]. exists es.
    eapply explains_imp; [| |exact He]; [intros; apply la_recover; auto|intros; apply oc_recover; assumption].
  - destruct IHederiv as [es He]; auto; [apply Hg|]. exists es.
    eapply explains_imp; [| |exact He]; [intros; apply la_with; auto|intros; apply oc_with; assumption].
  - exists [EIns l [inr l]]. apply explains_ins; [apply la_with_ins|simpl; auto].
  - destruct IHederiv as [es He]; auto; [apply Hg|]. exists es.
    eapply explains_imp; [| |exact He]; [intros; apply la_withfn; auto|intros; apply oc_withfn; assumption].
  - exists [EIns (lab x) [inr (lab x)]]. apply explains_ins; [eapply la_withfn_ins; eauto|simpl; eauto 6].
  - destruct IHederiv as [es He]; auto; [apply Hg|]. exists es.
    eapply explains_imp; [| |exact He]; [intros; apply la_block; auto|intros; apply oc_block; assumption].
  - destruct IHederiv as [es He]; auto; [apply Hg|]. exists es.
    eapply explains_imp; [| |exact He]; [intros; apply la_aligned; auto|intros; apply oc_aligned; assumption].
  - destruct IHederiv as [es He]; auto; [apply Hg|]. exists es.
    eapply explains_imp; [| |exact He]; [intros; apply la_indented; auto|intros; apply oc_indented; assumption].
  - destruct (IHederiv (HE d) Hi) as [es He]. exists es.
    eapply explains_imp; [| |exact He]; [intros; apply la_delay; auto|intros; apply oc_delay; assumption].
Qed.

(** a script without operations only keeps *)
Lemma edits_no_ops (es : list (edit T)) i :
  edits_ops i es = [] -> edits_out es = map inl (edits_in es).
Proof.
  revert i. induction es as [|[t|ts|l w] es IH]; simpl; intros i H; auto; try discriminate.
  unfold edits_in, edits_out in *. simpl. f_equal. eapply IH; eauto.
Qed.

Theorem ederiv_sentence (E : env T V) s col : wf_env E ->
  forall A (g : gram T V A) m i j v,
  ederiv E s col A g m i j [] v -> wf g -> i <= List.length s ->
  lang E A g (map inl (slice s i j)) v.
Proof.
  intros HE A g m i j v H Hg Hi.
  destruct (ederiv_explained E s col HE _ _ _ _ _ _ _ H Hg Hi) as (es & H1 & H2 & H3 & _).
  rewrite (edits_no_ops _ _ H2), H1 in H3. exact H3.
Qed.

(** ** Context systems *)

(** any location function, nothing known about locations and columns *)
Definition any_Cok : nat -> ctx T -> Prop := fun _ _ => True.
Lemma any_system s lay :
  ctx_system s (fun _ _ => True) (fun _ _ => True) any_Cok lay.
Proof. constructor; intros; unfold any_Cok; auto. Qed.

(** location functions that depend on the position only *)
Definition pos_Cok (get : loc -> list T -> nat -> loc) (locof : nat -> loc)
    (pos : nat) (c : ctx T) : Prop :=
  ctx_get c = get /\
  (ctx_loc c = Loc 0 0 0 \/ exists p, p <= pos /\ ctx_loc c = locof p).
Definition pos_locrel (locof : nat -> loc) (p : nat) (l : loc) : Prop := l = locof p.
Definition pos_colrel (locof : nat -> loc) (p : nat) (z : Z) : Prop :=
  z = loc_col (locof p).

Lemma pos_system s get locof (lay : Prop) :
  cohere get s locof -> (lay -> exactpos s locof) ->
  ctx_system s (pos_locrel locof) (pos_colrel locof) (pos_Cok get locof) lay.
Proof.
  intros Hco Hlay.
  assert (Hmono : forall pos pos' c, pos_Cok get locof pos c -> pos <= pos' ->
    pos_Cok get locof pos' c).
  { intros pos pos' c [H1 [H2|[p [H2 H3]]]] H; split; auto.
    right; exists p; split; auto; lia. }
  assert (Hloc : forall pos c, pos_Cok get locof pos c -> pos <= List.length s ->
    get_loc c s pos = locof pos).
  { intros pos c [H1 H2] Hp. unfold get_loc. rewrite H1.
    destruct H2 as [->|[p [H2 ->]]]; apply Hco; auto. }
  constructor; [exact Hmono| | | |].
  - intros pos c m [H1 H2]; split; auto.
  - intros pos c Hc Hp. apply Hloc; auto.
  - intros pos pos' c Hc Hp. unfold update_loc.
    destruct (Z.eqb _ _); [eapply Hmono; eauto; lia|].
    split; simpl; [apply Hc|]. right. exists pos'. split; [lia|].
    apply (Hloc pos' c); [eapply Hmono; eauto; lia|lia].
  - intros pos c L Hc Hp. destruct (Hlay L) as [H0 Hx]. unfold pos_locrel, pos_colrel.
    assert (He : ctx_loc (update_loc c s pos) = locof pos); [|rewrite He; auto].
    unfold update_loc.
    destruct (Z.eqb_spec (Z.of_nat pos) (loc_pos (ctx_loc c))) as [Heq|Hne].
    + destruct Hc as [_ [H2|[p [H2 H3]]]].
      * rewrite H2 in Heq |- *. simpl in Heq. rewrite <- H0. f_equal. lia.
      * rewrite H3 in Heq |- *. rewrite Hx in Heq by lia. f_equal. lia.
    + simpl. apply (Hloc _ _ Hc Hp).
Qed.

Lemma pos_init get locof : pos_Cok get locof 0 (init_ctx (T:=T) get).
Proof. split; simpl; auto. Qed.

Lemma gok_wf (lay : Prop) A (g : gram T V A) :
  wf g -> (lay \/ no_layout g) -> gok lay g.
Proof.
  intros H [L|L].
  - eapply gall_mono; [|exact H]. simpl. auto.
  - eapply gall_mono; [|exact (gall_and _ _ _ _ H L)]. simpl. tauto.
Qed.
End EditSpec.
