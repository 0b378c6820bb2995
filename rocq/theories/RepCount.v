(** The number of repairs that a recovering run holds is at most twice the number of
    the calls of parse functions that it makes. *)
From Verif Require Import CostFullProofs.

Section RepCount.
Context {T : Type}.
(** repairs, a success counting as one *)
Definition weight {A} (r : res T A) : nat :=
  match r with ROk _ => 1 | RErr _ => 0 | RRec rc => List.length (rc_reps rc) end.
Definition wt {A} (k : nat) (m : cm (res T A)) : Prop :=
  forall r, snd m = Ret r -> weight r <= 2 * fst m + k.

Lemma mapM_length {A B} (f : A -> out B) l : forall l', mapM f l = Ret l' -> List.length l' = List.length l.
Proof.
  induction l as [|a l IH]; intros l' H; simpl in H; [injection H as <-; reflexivity|].
  destruct (f a); simpl in H; try discriminate. destruct (mapM f l); simpl in H; try discriminate.
  injection H as <-. simpl. f_equal. apply IH. reflexivity.
Qed.
Lemma weight_fmap {A B} (f : A -> out B) r r' : res_fmap f r = Ret r' -> weight r' = weight r.
Proof.
  destruct r as [o|e|rc]; simpl; intros H.
  - destruct (ok_fmap f o); try discriminate. injection H as <-. reflexivity.
  - injection H as <-. reflexivity.
  - unfold rec_fmap in H. destruct (mapM _ (rc_reps rc)) as [l| |] eqn:El; try discriminate. simpl in H. injection H as <-.
    apply mapM_length in El. exact El.
Qed.
Lemma weight_prepend {A} x c (r : res T A) : weight (res_prepend x c r) = weight r.
Proof. destruct r as [o|e|rc]; simpl; rewrite ?map_length; reflexivity. Qed.
Lemma weight_set_ctx {A} c (r : res T A) : weight (res_set_ctx c r) = weight r.
Proof. destruct r as [o|e|rc]; simpl; rewrite ?map_length; reflexivity. Qed.
Lemma weight_set_exp {A} x (r : res T A) : weight (res_set_exp x r) = weight r.
Proof. destruct r as [o|e|rc]; simpl; rewrite ?map_length; reflexivity. Qed.
Lemma weight_join {A} (a b : recr T A) : weight (RRec (join_repairs a b)) <= weight (RRec a) + weight (RRec b).
Proof.
  assert (F : forall (f : repair T A -> bool) l, List.length (filter f l) <= List.length l).
  { intros f l. induction l as [|x l IH]; simpl; [lia|]. destruct (f x); simpl; lia. }
  unfold join_repairs. simpl. destruct (rc_min a);
    destruct (rc_con a); [| destruct (rc_con b)| | destruct (rc_con b)]; simpl; rewrite app_length;
    apply Nat.add_le_mono_l, F.
Qed.

Lemma wt_tick {A} (m : cm (res T A)) : wt 2 m -> wt 0 (tick m).
Proof. intros H r E. specialize (H r E). simpl. lia. Qed.
Lemma wt_mono {A} k k' (m : cm (res T A)) : k <= k' -> wt k m -> wt k' m.
Proof. intros L H r E. specialize (H r E). lia. Qed.
Lemma wt_ret {A} k (r : out (res T A)) : (forall x, r = Ret x -> weight x <= k) -> wt k (cret r).
Proof. intros H x E. simpl in *. specialize (H x E). lia. Qed.
Lemma wt_bind {A B} k (m : cm A) (f : A -> cm (res T B)) :
  (forall a, snd m = Ret a -> forall r, snd (f a) = Ret r -> weight r <= 2 * (fst m + fst (f a)) + k) -> wt k (cbind m f).
Proof.
  intros H r E. unfold cbind in *. destruct (snd m) as [a|e|] eqn:Em; simpl in E; try discriminate. simpl.
  specialize (H a eq_refl r E). lia.
Qed.
(** what was done before does not count *)
Lemma wt_after {A B} k (m : cm A) (f : A -> cm (res T B)) : (forall a, wt k (f a)) -> wt k (cbind m f).
Proof. intros H. apply wt_bind. intros a _ r E. specialize (H a r E). lia. Qed.
Lemma wt_map {A B} (m : cm (res T A)) (f : res T A -> out (res T B)) k :
  wt 0 m -> (forall r x, f r = Ret x -> weight x <= weight r + k) -> wt k (cbind m (fun r => cret (f r))).
Proof. intros H Hf. apply wt_bind. intros a E r E'. simpl in *. specialize (H a E). specialize (Hf a r E'). lia. Qed.

Lemma cflat_count {A B} (f : A -> cm (list B)) l : (forall a y, snd (f a) = Ret y -> List.length y <= 2 * fst (f a)) ->
  forall y, snd (cflat_map f l) = Ret y -> List.length y <= 2 * fst (cflat_map f l).
Proof.
  intros H. induction l as [|a l IH]; intros y E; simpl in *; [injection E as <-; simpl; lia|].
  unfold cbind in *. specialize (H a). destruct (snd (f a)) as [x| |]; simpl in E; try discriminate.
  destruct (snd (cflat_map f l)) as [z| |]; simpl in E; try discriminate. injection E as <-. simpl.
  rewrite app_length. specialize (H x eq_refl). specialize (IH z eq_refl). lia.
Qed.
Lemma wt_continue {A B C} (ra : recr T A) ins (parse : A -> nat -> ctx T -> Z -> cm (res T B)) (merge : A -> B -> C) :
  (forall v p c r, wt 0 (parse v p c r)) -> wt 0 (continue_cost ra ins parse merge).
Proof.
  intros H. unfold continue_cost. apply wt_bind. intros l E r E'. simpl in E'. injection E' as <-. simpl.
  apply (cflat_count _ _) in E; [lia|]. intros a y Ey. unfold cont_one_cost, cbind in *.
  specialize (H (r_val a) (r_pos a) (r_ctx a) (r_ins a)). destruct (snd (parse (r_val a) (r_pos a) (r_ctx a) (r_ins a))) as [rb| |] eqn:Eb;
    simpl in Ey; try discriminate.
  specialize (H rb Eb). destruct rb as [o|e|rb]; simpl in *; injection Ey as <-; simpl; rewrite ?map_length; lia.
Qed.
Lemma wt_many {A} (p : pcostr T A) : (forall s pos c ins rem, wt 0 (p s pos c ins rem)) ->
  forall n b vs s pos c ins, wt 2 (many_costr p n b vs s pos c ins).
Proof.
  intros H. induction n as [|n IH]; intros b vs s pos c ins; [intros r E; discriminate|]. simpl.
  apply wt_after. intros [o|e|rc].
  - destruct (ok_con o); [apply IH|]. intros r E. discriminate.
  - destruct (er_con e); apply wt_ret; intros x [= <-]; simpl; lia.
  - apply (wt_mono 0); [lia|]. apply wt_continue. intros. apply wt_tick, IH.
Qed.
Lemma weight_prim {A} (s : list T) pos (X : Type) (probe : nat -> out (option X)) (k : option (nat * X) -> out (res T A)) :
  (forall f r, k f = Ret r -> weight r <= 2) ->
  forall r, (f <- skip_search s pos probe ;; k f) = Ret r -> weight r <= 2.
Proof. intros H r E. destruct (skip_search s pos probe); simpl in E; try discriminate. eapply H; eauto. Qed.

Context {V : nat -> Type}.
Variable E : env T V.
Theorem wt_full n : forall A (g : gram T V A) s pos c ins rem, wt 0 (cfull E n g s pos c ins rem).
Proof.
  induction n as [|n IH]; intros A g s pos c ins rem; [intros r H; discriminate|].
  cbn [cfull]. apply wt_tick.
  destruct g as [A x|A f|A l| |test|teq x l|teq x l|A m|A B p f|A p q|A B p f|A B C p q merge|A p|A p|A p|A p x|A p|A p x l|A p fn lab|A p|A p|A delta p|d|A].
  - apply wt_ret. intros y [= <-]. simpl. lia.
  - apply wt_ret. unfold purefn_full. intros y Ey. destruct (f tt); simpl in Ey; try discriminate. injection Ey as <-. simpl. lia.
  - apply wt_ret. intros y [= <-]. simpl. lia.
  - apply wt_ret. unfold eof_full. intros y. destruct (Nat.eqb _ _); [|destruct rem]; intros [= <-]; simpl; lia.
  - apply wt_ret. unfold satisfy_full. intros y. destruct (probe_tok test s pos) as [[t|]| |]; cbn [obind]; try discriminate.
    + intros [= <-]; simpl; lia.
    + destruct rem; [|intros [= <-]; simpl; lia]. cbv zeta. revert y. apply weight_prim. intros [[cur t]|] r [= <-]; simpl; lia.
  - apply wt_ret. unfold sym_full. intros y. destruct (probe_sym teq x s pos) as [[t|]| |]; cbn [obind]; try discriminate.
    + intros [= <-]; simpl; lia.
    + destruct rem as [m|]; [|intros [= <-]; simpl; lia]. cbv zeta. revert y. apply weight_prim.
      intros [[cur t]|] r [= <-]; destruct (Z.eqb m 0); simpl; lia.
  - apply wt_ret. unfold literal_full. intros y. cbv zeta. destruct (starts_with teq x s pos).
    + intros [= <-]; simpl; lia.
    + destruct rem as [m|]; [|intros [= <-]; simpl; lia]. revert y. apply weight_prim.
      intros [[cur t]|] r [= <-]; destruct (Z.eqb m 0); simpl; lia.
  - apply wt_ret. unfold regexp_full. intros y. destruct (probe_re m s pos) as [[e v]|].
    + intros [= <-]; simpl; lia.
    + destruct rem; [|intros [= <-]; simpl; lia]. cbv zeta. revert y. apply weight_prim. intros [[cur [e v]]|] r [= <-]; simpl; lia.
  - unfold fmap_costr. apply wt_map; [apply IH|]. intros r x Ex. apply weight_fmap in Ex. lia.
  - unfold alt_costr.
    assert (R : forall la x, wt 2 (alt_recover_cost (cfull E n p) (cfull E n q) la x s pos c ins rem)).
    { intros la x. unfold alt_recover_cost. destruct rem as [m|]; [|apply wt_ret; intros r [= <-]; simpl; lia].
      apply (wt_mono 0); [lia|]. apply wt_bind. intros a Ea r Er. pose proof (IH _ p s pos c ins (Some m) a Ea) as Wa.
      unfold cbind in Er |- *. pose proof (IH _ q s pos c ins (Some m)) as Wb.
      destruct (snd (cfull E n q s pos c ins (Some m))) as [b| |] eqn:Eb; cbn [fst snd] in Er |- *; try discriminate.
      specialize (Wb b Eb). destruct a as [o|e|ra], b as [o'|e'|rb]; cbn [fst snd cret] in Er |- *; injection Er as <-;
        try pose proof (weight_join ra rb) as J; unfold rec_set_exp; cbn [weight rc_reps] in *; rewrite ?map_length; lia. }
    apply wt_bind. intros a Ea r Er. pose proof (IH _ p s pos c ins None a Ea) as Wa.
    assert (Q : forall la xa, forall r, snd (rb <~ cfull E n q s pos c ins None ;;
          (if res_con rb then cret (Ret rb) else
           let expected := Append xa (res_exp rb) in
            match rb with
            | ROk ob => cret (Ret (ROk (ok_set_exp expected ob)))
            | _ => alt_recover_cost (cfull E n p) (cfull E n q) la expected s pos c ins rem
            end)) = Ret r -> weight r <= 2 * fst (rb <~ cfull E n q s pos c ins None ;;
          (if res_con rb then cret (Ret rb) else
           let expected := Append xa (res_exp rb) in
            match rb with
            | ROk ob => cret (Ret (ROk (ok_set_exp expected ob)))
            | _ => alt_recover_cost (cfull E n p) (cfull E n q) la expected s pos c ins rem
            end)) + 2).
    { intros la xa. apply wt_bind. intros b Eb x Ex. pose proof (IH _ q s pos c ins None b Eb) as Wb.
      destruct (res_con b); [cbn [fst snd cret] in *; injection Ex as <-; lia|]. cbv zeta in *.
      destruct b as [ob|eb|rb]; [cbn [fst snd cret] in *; injection Ex as <-; simpl in *; lia| |];
        apply R in Ex; lia. }
    destruct a as [o|[la xa ca]|[reps mn la xa ca]].
    + cbn [fst snd cret] in *. injection Er as <-. lia.
    + destruct ca; [cbn [fst snd cret] in *; injection Er as <-; lia|]. etransitivity; [exact (Q la xa r Er)|]. apply Nat.add_le_mono_r, Nat.mul_le_mono_l, Nat.le_add_l.
    + destruct ca; [cbn [fst snd cret] in *; injection Er as <-; lia|]. etransitivity; [exact (Q la xa r Er)|]. apply Nat.add_le_mono_r, Nat.mul_le_mono_l, Nat.le_add_l.
  - unfold bind_costr. apply wt_after. intros [o|e|rc].
    + apply wt_map with (k := 2); [apply IH|]. intros r x [= <-]. rewrite weight_prepend. lia.
    + apply wt_ret. intros x [= <-]. simpl. lia.
    + apply (wt_mono 0); [lia|]. apply wt_continue. intros. apply IH.
  - unfold seq_costr. apply wt_after. intros [o|e|rc].
    + cbv zeta. apply wt_map with (k := 2); [apply IH|]. intros r x Ex. destruct (res_fmap _ r) as [y| |] eqn:Ey; simpl in Ex; try discriminate.
      injection Ex as <-. apply weight_fmap in Ey. rewrite weight_prepend. lia.
    + apply wt_ret. intros x [= <-]. simpl. lia.
    + apply (wt_mono 0); [lia|]. apply wt_continue. intros. apply IH.
  - unfold maybe_costr. apply wt_map; [apply IH|]. intros r x Ex. destruct r as [o|e|rc]; cbn [res_con] in Ex.
    + apply weight_fmap in Ex. lia.
    + destruct (er_con e); [apply weight_fmap in Ex; lia|]. injection Ex as <-. simpl. lia.
    + destruct (rc_con rc); [apply weight_fmap in Ex; lia|]. injection Ex as <-. simpl. lia.
  - apply wt_many. apply IH.
  - unfold attempt_costr. destruct rem; [apply (wt_mono 0); [lia|apply IH]|]. apply wt_after. intros [o|e]; apply wt_ret; intros x [= <-]; simpl; lia.
  - unfold label_costr. apply wt_map; [apply IH|]. intros r y [= <-]. rewrite weight_set_exp. lia.
  - unfold recover_costr. apply wt_map; [apply IH|]. intros [o|e|rc] y [= <-]; simpl; rewrite ?map_length; lia.
  - unfold recover_with_costr. destruct rem as [m|]; [|apply (wt_mono 0); [lia|apply IH]]. apply wt_map; [apply IH|].
    intros r y Ey. destruct r as [o|e|rc]; cbn [res_con] in Ey.
    + injection Ey as <-. lia.
    + destruct (er_con e); [injection Ey as <-; lia|]. destruct (Z.eqb m 0); [injection Ey as <-; lia|].
      simpl in Ey. injection Ey as <-. simpl. lia.
    + destruct (rc_con rc); [injection Ey as <-; lia|]. destruct (Z.eqb m 0); [injection Ey as <-; lia|].
      simpl in Ey. injection Ey as <-. simpl. lia.
  - unfold recover_with_costr. destruct rem as [m|]; [|apply (wt_mono 0); [lia|apply IH]]. apply wt_map; [apply IH|].
    intros r y Ey. destruct r as [o|e|rc]; cbn [res_con] in Ey.
    + injection Ey as <-. lia.
    + destruct (er_con e); [injection Ey as <-; lia|]. destruct (Z.eqb m 0); [injection Ey as <-; lia|].
      destruct (fn s pos); simpl in Ey; try discriminate. injection Ey as <-. simpl. lia.
    + destruct (rc_con rc); [injection Ey as <-; lia|]. destruct (Z.eqb m 0); [injection Ey as <-; lia|].
      destruct (fn s pos); simpl in Ey; try discriminate. injection Ey as <-. simpl. lia.
  - unfold block_costr. cbv zeta. apply wt_map; [apply IH|]. intros r x [= <-]. rewrite weight_set_ctx. lia.
  - unfold aligned_costr. cbv zeta. destruct (Z.eqb _ _); [apply (wt_mono 0); [lia|apply IH]|]. apply wt_ret. intros x [= <-]. simpl. lia.
  - unfold indented_costr. cbv zeta. destruct (Z.eqb _ _); [|apply wt_ret; intros x [= <-]; simpl; lia].
    apply wt_map; [apply IH|]. intros r x [= <-]. rewrite weight_set_ctx. lia.
  - apply (wt_mono 0); [lia|]. apply IH.
  - intros r H. discriminate.
Qed.
End RepCount.
