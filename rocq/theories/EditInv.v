(** The main invariant: every success and every repair of the interpreters is
    an edit derivation of the grammar, every location is the location of a
    position inside the stream, column marks are preserved and costs add up. *)
From Verif Require Export Simulation Spec.

Lemma gall_node {T V} (P : forall A, gram T V A -> Prop) A (g : gram T V A) :
  gall P g -> P A g.
Proof. destruct g; simpl; tauto. Qed.

Lemma gall_mono {T V} (P Q : forall A, gram T V A -> Prop) :
  (forall A g, P A g -> Q A g) -> forall A (g : gram T V A), gall P g -> gall Q g.
Proof.
  intros HPQ A g. induction g; simpl; intros Hg; repeat split;
    try (apply HPQ; tauto); try tauto; try (destruct Hg as [? [? ?]]; auto).
Qed.

Lemma gall_and {T V} (P Q : forall A, gram T V A -> Prop) A (g : gram T V A) :
  gall P g -> gall Q g -> gall (fun A g => P A g /\ Q A g) g.
Proof.
  induction g; simpl; intros Hp Hq; repeat split;
    try tauto; destruct Hp as [? [? ?]], Hq as [? [? ?]]; auto.
Qed.

Ltac csplit := repeat match goal with |- _ /\ _ => split end.

Section EditInv.
Context {T : Type} {V : nat -> Type}.
Variable E : env T V.
Variable s : list T.
Let len := List.length s.
(** [locrel p l]: [l] is a location of position [p]; [colrel p z]: [z] is a
    column of position [p]; [Cok p c]: [c] can be the context at position [p];
    [lay]: layout combinators may be used. *)
Variable locrel : nat -> loc -> Prop.
Variable colrel : nat -> Z -> Prop.
Variable Cok : nat -> ctx T -> Prop.
Variable lay : Prop.
Record ctx_system : Prop := {
  cs_mono : forall pos pos' c, Cok pos c -> pos <= pos' -> Cok pos' c;
  cs_mark : forall pos c m, Cok pos c -> Cok pos (set_mark c m);
  cs_loc : forall pos c, Cok pos c -> pos <= len -> locrel pos (get_loc c s pos);
  cs_upd : forall pos pos' c, Cok pos c -> pos <= pos' <= len ->
    Cok pos' (update_loc c s pos');
  cs_col : forall pos c, lay -> Cok pos c -> pos <= len ->
    locrel pos (ctx_loc (update_loc c s pos)) /\
    colrel pos (loc_col (ctx_loc (update_loc c s pos)))
}.
Hypothesis CS : ctx_system.
Let Cok_mono := cs_mono CS.
Let Cok_mark := cs_mark CS.
Let Cok_loc := cs_loc CS.
Let Cok_upd := cs_upd CS.
Let Cok_exact := cs_col CS.

Definition gok {A} (g : gram T V A) : Prop :=
  gall (fun A g => wf_node A g /\ (is_layout A g -> lay)) g.
Hypothesis HE : forall d, gok (E d).

Lemma upd_mark (c : ctx T) pos : ctx_mark (update_loc c s pos) = ctx_mark c.
Proof. unfold update_loc. destruct (Z.eqb _ _); reflexivity. Qed.

(** ** Good results *)
Definition opskel (o : opitem) : rop * loc := (op_op o, op_loc o).
Definition skrel (o : rop * loc) (x : rop * nat) : Prop :=
  fst o = fst x /\ locrel (snd x) (snd o).

Section Good.
Context {A : Type}.
Variable D : nat -> list (rop * nat) -> A -> Prop.

Definition ogood (pos : nat) (mk : Z) (o : okr T A) : Prop :=
  D (ok_pos o) [] (ok_val o) /\ pos <= ok_pos o <= len /\
  ok_con o = Nat.ltb pos (ok_pos o) /\
  Cok (ok_pos o) (ok_ctx o) /\ ctx_mark (ok_ctx o) = mk.

Definition rgood (pos : nat) (mk : Z) (r : repair T A) : Prop :=
  exists sk,
    Forall2 skrel (map opskel (r_ops r)) sk /\
    D (r_pos r) sk (r_val r) /\ sk <> [] /\
    r_cost r = ops_cost (map op_op (r_ops r)) /\
    pos <= r_pos r <= len /\
    Cok (r_pos r) (r_ctx r) /\ ctx_mark (r_ctx r) = mk.

Definition lgood (pos : nat) (l : loc) : Prop :=
  exists p, pos <= p <= len /\ locrel p l.

Definition sgood (pos : nat) (mk : Z) (r : sres T A) : Prop :=
  match r with
  | SOk o => ogood pos mk o
  | SErr e => lgood pos (er_loc e)
  end.

Definition recgood (pos : nat) (mk : Z) (rem : option Z) (rc : recr T A) : Prop :=
  lgood pos (rc_loc rc) /\
  forall rep, In rep (rc_reps rc) ->
    rgood pos mk rep /\ (rem = None -> pos < r_pos rep).

Definition resgood (pos : nat) (mk : Z) (rem : option Z) (r : res T A) : Prop :=
  match r with
  | ROk o => ogood pos mk o
  | RErr e => lgood pos (er_loc e)
  | RRec rc => recgood pos mk rem rc
  end.
End Good.

Ltac csplit ::=
  simpl; try unfold ogood; simpl; repeat match goal with |- _ /\ _ => split end.

Definition der {A} (g : gram T V A) (mk : Z) (i : nat) : nat -> list (rop * nat) -> A -> Prop :=
  fun j sk v => ederiv E s colrel A g mk i j sk v.

Lemma lgood_mono pos pos' l : lgood pos' l -> pos <= pos' -> lgood pos l.
Proof. intros (p & H & Hl) Hp. exists p. split; auto; lia. Qed.

Lemma lgood_here pos c : Cok pos c -> pos <= len -> lgood pos (get_loc c s pos).
Proof. intros H Hp. exists pos. split; [lia|]. apply Cok_loc; auto. Qed.

(** weakening of the derivation predicate *)
Lemma ogood_imp {A} (D D' : nat -> list (rop * nat) -> A -> Prop) pos mk o :
  (forall j sk v, D j sk v -> D' j sk v) -> ogood D pos mk o -> ogood D' pos mk o.
Proof. intros H (H1 & H2). split; auto. Qed.
Lemma rgood_imp {A} (D D' : nat -> list (rop * nat) -> A -> Prop) pos mk o :
  (forall j sk v, D j sk v -> D' j sk v) -> rgood D pos mk o -> rgood D' pos mk o.
Proof. intros H (sk & H1 & H2 & H3). exists sk. auto. Qed.
Lemma resgood_imp {A} (D D' : nat -> list (rop * nat) -> A -> Prop) pos mk rem r :
  (forall j sk v, D j sk v -> D' j sk v) ->
  resgood D pos mk rem r -> resgood D' pos mk rem r.
Proof.
  intros H. destruct r as [o|e|rc]; simpl; auto.
  - apply ogood_imp; auto.
  - intros [H1 H2]. split; auto. intros rep Hr. destruct (H2 rep Hr).
    split; auto. eapply rgood_imp; eauto.
Qed.
Lemma sgood_imp {A} (D D' : nat -> list (rop * nat) -> A -> Prop) pos mk r :
  (forall j sk v, D j sk v -> D' j sk v) -> sgood D pos mk r -> sgood D' pos mk r.
Proof. intros H. destruct r; simpl; auto. apply ogood_imp; auto. Qed.

(** from a later position *)
Lemma rgood_from {A} (D : nat -> list (rop * nat) -> A -> Prop) pos pos' mk r :
  pos' <= pos -> rgood D pos mk r -> rgood D pos' mk r.
Proof.
  intros Hp (sk & H1 & H2 & H3 & H4 & H5 & H6). exists sk. csplit; auto; try lia; tauto.
Qed.

(** fmap *)
Lemma ogood_fmap {A B} (D : nat -> list (rop * nat) -> A -> Prop)
   (D' : nat -> list (rop * nat) -> B -> Prop) (f : A -> out B) pos mk o o' :
  (forall j sk v w, D j sk v -> f v = Ret w -> D' j sk w) ->
  ogood D pos mk o -> ok_fmap f o = Ret o' -> ogood D' pos mk o'.
Proof.
  intros HD (H1 & H2) Hf. unfold ok_fmap in Hf.
  apply obind_ret in Hf as [w [Hw Hf]]. injection Hf as <-.
  split; simpl; auto. eapply HD; eauto.
Qed.

Lemma mapM_in {A B} (f : A -> out B) l l' y :
  mapM f l = Ret l' -> In y l' -> exists x, In x l /\ f x = Ret y.
Proof.
  revert l'. induction l as [|x l IH]; simpl; intros l' H Hy.
  - injection H as <-. destruct Hy.
  - apply obind_ret in H as [y0 [H0 H]]. apply obind_ret in H as [ys [H1 H]].
    injection H as <-. destruct Hy as [->|Hy].
    + exists x; auto.
    + destruct (IH _ H1 Hy) as (x' & Hx & Hf). exists x'; auto.
Qed.

Lemma recgood_fmap {A B} (D : nat -> list (rop * nat) -> A -> Prop)
   (D' : nat -> list (rop * nat) -> B -> Prop) (f : A -> out B) pos mk rem rc rc' :
  (forall j sk v w, D j sk v -> f v = Ret w -> D' j sk w) ->
  recgood D pos mk rem rc -> rec_fmap f rc = Ret rc' -> recgood D' pos mk rem rc'.
Proof.
  intros HD (H1 & H2) Hf. unfold rec_fmap in Hf.
  apply obind_ret in Hf as [reps [Hr Hf]]. injection Hf as <-.
  split; simpl; auto. intros rep Hin.
  destruct (mapM_in _ _ _ _ Hr Hin) as (r0 & Hin0 & Hf0).
  unfold rep_fmap in Hf0. apply obind_ret in Hf0 as [w [Hw Hf0]]. injection Hf0 as <-.
  destruct (H2 _ Hin0) as [(sk & G1 & G2 & G3) G4]. split; auto.
  exists sk. simpl. csplit; auto; try tauto. eapply HD; eauto.
Qed.

Lemma resgood_fmap {A B} (D : nat -> list (rop * nat) -> A -> Prop)
   (D' : nat -> list (rop * nat) -> B -> Prop) (f : A -> out B) pos mk rem r r' :
  (forall j sk v w, D j sk v -> f v = Ret w -> D' j sk w) ->
  resgood D pos mk rem r -> res_fmap f r = Ret r' -> resgood D' pos mk rem r'.
Proof.
  intros HD Hg Hf. destruct r as [o|e|rc]; simpl in *.
  - apply obind_ret in Hf as [o' [H1 H2]]. injection H2 as <-. eapply ogood_fmap; eauto.
  - injection Hf as <-. exact Hg.
  - apply obind_ret in Hf as [o' [H1 H2]]. injection H2 as <-. eapply recgood_fmap; eauto.
Qed.

Lemma sgood_fmap {A B} (D : nat -> list (rop * nat) -> A -> Prop)
   (D' : nat -> list (rop * nat) -> B -> Prop) (f : A -> out B) pos mk r r' :
  (forall j sk v w, D j sk v -> f v = Ret w -> D' j sk w) ->
  sgood D pos mk r -> sres_fmap f r = Ret r' -> sgood D' pos mk r'.
Proof.
  intros HD Hg Hf. destruct r as [o|e]; simpl in *.
  - apply obind_ret in Hf as [o' [H1 H2]]. injection H2 as <-. eapply ogood_fmap; eauto.
  - injection Hf as <-. exact Hg.
Qed.

(** set_expected, prepend, set_ctx, priorities *)
Lemma skel_set_exp ops x : map opskel (ops_set_expected ops x) = map opskel ops.
Proof.
  unfold ops_set_expected. rewrite map_map. apply map_ext. intros o.
  destruct (op_con o); reflexivity.
Qed.
Lemma skel_prepend ops x b : map opskel (ops_prepend_expected ops x b) = map opskel ops.
Proof.
  unfold ops_prepend_expected. rewrite map_map. apply map_ext. intros o.
  destruct (op_con o); reflexivity.
Qed.
Lemma ops_of_skel ops ops' : map opskel ops = map opskel ops' ->
  map op_op ops = map op_op ops'.
Proof.
  intros H. apply (f_equal (map fst)) in H. rewrite !map_map in H. exact H.
Qed.

(** a change of bookkeeping fields of a repair *)
Lemma rgood_same {A} (D : nat -> list (rop * nat) -> A -> Prop) pos mk (r r' : repair T A) :
  map opskel (r_ops r') = map opskel (r_ops r) -> r_val r' = r_val r ->
  r_pos r' = r_pos r -> r_cost r' = r_cost r -> r_ctx r' = r_ctx r ->
  rgood D pos mk r -> rgood D pos mk r'.
Proof.
  intros H1 H2 H3 H4 H5 (sk & G1 & G2 & G3 & G4 & G5 & G6 & G7).
  exists sk. rewrite H2, H3, H4, H5, (ops_of_skel _ _ H1).
  rewrite H1. auto 10.
Qed.

Lemma ogood_set_exp {A} (D : nat -> list (rop * nat) -> A -> Prop) pos mk x o :
  ogood D pos mk o -> ogood D pos mk (ok_set_exp x o).
Proof.
  intros (H1 & H2 & H3 & H4 & H5). unfold ok_set_exp. destruct (ok_con o) eqn:Hc;
    unfold ogood; simpl; csplit; auto; try lia; congruence.
Qed.
Lemma resgood_set_exp {A} (D : nat -> list (rop * nat) -> A -> Prop) pos mk rem x r :
  resgood D pos mk rem r -> resgood D pos mk rem (res_set_exp x r).
Proof.
  destruct r as [o|e|rc]; simpl.
  - apply ogood_set_exp.
  - intros H. unfold er_set_exp. destruct (er_con e); auto.
  - intros [H1 H2]. split; simpl; auto. intros rep Hin.
    apply in_map_iff in Hin as (r0 & <- & Hin). destruct (H2 _ Hin) as [G1 G2].
    split; simpl; auto. apply (rgood_same _ _ _ r0); simpl; auto using skel_set_exp.
Qed.
Lemma sgood_set_exp {A} (D : nat -> list (rop * nat) -> A -> Prop) pos mk x r :
  sgood D pos mk r -> sgood D pos mk (sres_set_exp x r).
Proof.
  destruct r as [o|e]; simpl.
  - apply ogood_set_exp.
  - intros H. unfold er_set_exp. destruct (er_con e); auto.
Qed.

(** prepend_expected of the result of a continuation started at [pos'] *)
Lemma ogood_prepend {A} (D : nat -> list (rop * nat) -> A -> Prop) pos pos' mk x b o :
  pos <= pos' -> b = Nat.ltb pos pos' ->
  ogood D pos' mk o -> ogood D pos mk (ok_prepend x b o).
Proof.
  intros Hp Hb (H1 & H2 & H3 & H4 & H5). unfold ok_prepend.
  destruct (ok_con o) eqn:Hc; symmetry in H3; unfold ogood; simpl; csplit; auto; try lia.
  - rewrite Hc. symmetry. apply Nat.ltb_lt in H3. apply Nat.ltb_lt. lia.
  - apply Nat.ltb_ge in H3. subst b. f_equal; lia.
Qed.
Lemma resgood_prepend {A} (D : nat -> list (rop * nat) -> A -> Prop) pos pos' mk rem rem' x b r :
  pos <= pos' -> b = Nat.ltb pos pos' -> (b = true \/ rem' = rem) ->
  resgood D pos' mk rem' r -> resgood D pos mk rem (res_prepend x b r).
Proof.
  intros Hp Hb Hrem. destruct r as [o|e|rc]; simpl.
  - apply ogood_prepend; auto.
  - intros H. unfold er_prepend. destruct (er_con e); eapply lgood_mono; eauto.
  - intros [H1 H2]. split; simpl; [eapply lgood_mono; eauto|]. intros rep Hin.
    apply in_map_iff in Hin as (r0 & <- & Hin). destruct (H2 _ Hin) as [G1 G2].
    split; simpl.
    + eapply rgood_from; eauto. apply (rgood_same _ _ _ r0); simpl; auto using skel_prepend.
    + intros Hn. destruct Hrem as [Hrem|Hrem].
      * rewrite Hrem in Hb. symmetry in Hb. apply Nat.ltb_lt in Hb.
        destruct G1 as (sk & _ & _ & _ & _ & Hr & _). lia.
      * assert (pos' < r_pos r0) by (apply G2; congruence). lia.
Qed.
Lemma sgood_prepend {A} (D : nat -> list (rop * nat) -> A -> Prop) pos pos' mk x b r :
  pos <= pos' -> b = Nat.ltb pos pos' ->
  sgood D pos' mk r -> sgood D pos mk (sres_prepend x b r).
Proof.
  intros Hp Hb. destruct r as [o|e]; simpl.
  - apply ogood_prepend; auto.
  - intros H. unfold er_prepend. destruct (er_con e); eapply lgood_mono; eauto.
Qed.

Lemma ogood_set_ctx {A} (D : nat -> list (rop * nat) -> A -> Prop) pos mk mk' c o :
  Cok pos c -> ctx_mark c = mk' -> ogood D pos mk o -> ogood D pos mk' (ok_set_ctx c o).
Proof.
  intros Hc Hm (H1 & H2 & H3 & H4). csplit; simpl; auto; try lia; try tauto;
    eapply Cok_mono; eauto; lia.
Qed.
Lemma resgood_set_ctx {A} (D : nat -> list (rop * nat) -> A -> Prop) pos mk mk' rem c r :
  Cok pos c -> ctx_mark c = mk' ->
  resgood D pos mk rem r -> resgood D pos mk' rem (res_set_ctx c r).
Proof.
  intros Hc Hm. destruct r as [o|e|rc]; simpl; auto.
  - apply ogood_set_ctx; auto.
  - intros [H1 H2]. split; simpl; auto. intros rep Hin.
    apply in_map_iff in Hin as (r0 & <- & Hin).
    destruct (H2 _ Hin) as [(sk & G1 & G2 & G3 & G4 & G5 & G6 & G7) G8].
    split; simpl; auto. exists sk. csplit; simpl; auto; try lia; try tauto;
      try (eapply Cok_mono; eauto; lia).
Qed.
Lemma sgood_set_ctx {A} (D : nat -> list (rop * nat) -> A -> Prop) pos mk mk' c r :
  Cok pos c -> ctx_mark c = mk' -> sgood D pos mk r -> sgood D pos mk' (sres_set_ctx c r).
Proof. intros Hc Hm. destruct r; simpl; auto. apply ogood_set_ctx; auto. Qed.

(** continue_parse *)
Lemma flat_mapM_in {A B} (f : A -> out (list B)) l l' y :
  flat_mapM f l = Ret l' -> In y l' -> exists x ys, In x l /\ f x = Ret ys /\ In y ys.
Proof.
  revert l'. induction l as [|x l IH]; simpl; intros l' H Hy.
  - injection H as <-. destruct Hy.
  - apply obind_ret in H as [y0 [H0 H]]. apply obind_ret in H as [ys [H1 H]].
    injection H as <-. apply in_app_or in Hy as [Hy|Hy].
    + exists x, y0; auto.
    + destruct (IH _ H1 Hy) as (x' & ys' & Hx & Hf & Hin). exists x', ys'; auto.
Qed.

Lemma ops_cost_app a b : ops_cost (a ++ b) = ops_cost a + ops_cost b.
Proof. unfold ops_cost. rewrite map_app. apply list_sum_app. Qed.

Lemma join_ops_skel {A B} (r : repair T A) (r' : repair T B) :
  map opskel (join_ops r r') = map opskel (r_ops r) ++ map opskel (r_ops r').
Proof.
  unfold join_ops. rewrite map_app, skel_prepend, map_map. f_equal.
Qed.

Lemma recgood_continue {A B C} (D1 : nat -> list (rop * nat) -> A -> Prop)
   (D2 : A -> nat -> nat -> list (rop * nat) -> B -> Prop)
   (D : nat -> list (rop * nat) -> C -> Prop) pos mk rem rc ins
   (f : A -> nat -> ctx T -> Z -> out (res T B)) (merge : A -> B -> C) r :
  (forall j sk1 v k sk2 w, D1 j sk1 v -> D2 v j k sk2 w -> D k (sk1 ++ sk2) (merge v w)) ->
  (forall v p c' z r', p <= len -> Cok p c' -> ctx_mark c' = mk ->
     f v p c' z = Ret r' -> exists rem', resgood (D2 v p) p mk rem' r') ->
  recgood D1 pos mk rem rc ->
  continue_parse rc ins f merge = Ret r -> resgood D pos mk rem r.
Proof.
  intros HD Hf [G1 G2] Hc. apply continue_ret in Hc as (reps & Hm & ->).
  split; simpl; auto. intros rep Hin.
  destruct (flat_mapM_in _ _ _ _ Hm Hin) as (ra & ys & Hin1 & H1 & H2).
  destruct (G2 _ Hin1) as [(sk & F1 & F2 & F3 & F4 & F5 & F6 & F7) F8].
  unfold cont_one in H1. apply obind_ret in H1 as [rb [Hb H1]].
  destruct (Hf _ _ _ _ _ (proj2 F5) F6 F7 Hb) as (rem' & Hg).
  destruct rb as [o|e|rb].
  - injection H1 as <-. destruct H2 as [<-|[]]. destruct Hg as (O1 & O2 & O3 & O4 & O5).
    split; simpl.
    + exists sk. simpl. rewrite <- (app_nil_r sk) at 2. csplit; auto; try lia.
      eapply HD; eauto.
    + intros Hn. specialize (F8 Hn). lia.
  - injection H1 as <-. destruct H2.
  - injection H1 as <-. apply in_map_iff in H2 as (rr & <- & Hrr).
    destruct Hg as [_ Hg]. destruct (Hg _ Hrr) as [(sk' & K1 & K2 & K3 & K4 & K5 & K6 & K7) K8].
    split; simpl.
    + exists (sk ++ sk'). simpl. rewrite join_ops_skel.
      split; [apply Forall2_app; auto|]. split; [eapply HD; eauto|].
      split; [destruct sk; [tauto|discriminate]|].
      split; [|csplit; auto; lia].
      unfold join_ops. rewrite map_app, map_map. simpl.
      rewrite ops_cost_app, F4, K4. f_equal. f_equal.
      apply ops_of_skel. symmetry. apply skel_prepend.
    + intros Hn. specialize (F8 Hn). lia.
Qed.

(** alternatives *)
Lemma recgood_join {A} (D : nat -> list (rop * nat) -> A -> Prop) pos mk rem ra rb :
  recgood D pos mk rem ra -> recgood D pos mk rem rb ->
  recgood D pos mk rem (join_repairs ra rb).
Proof.
  intros [A1 A2] [B1 B2]. unfold join_repairs.
  set (P := fun rep => rgood D pos mk rep /\ (rem = None -> pos < r_pos rep)).
  assert (Hreps : forall f rep, In rep (rc_reps ra ++ filter f (rc_reps rb)) -> P rep).
  { intros f rep H. apply in_app_or in H as [H|H]; [apply A2; auto|].
    apply filter_In in H as [H _]. apply B2; auto. }
  destruct (rc_min ra); destruct (rc_con ra); try destruct (rc_con rb);
    (split; simpl; [auto|apply Hreps]).
Qed.

(** ** Skip search *)
Lemma skip_loop_found {X} (probe : nat -> out (option X)) k : forall cur q x,
  skip_loop probe k cur = Ret (Some (q, x)) ->
  cur <= q < cur + k /\ probe q = Ret (Some x) /\
  forall j, cur <= j < q -> probe j = Ret None.
Proof.
  induction k as [|k IH]; simpl; intros cur q x H; [discriminate|].
  apply obind_ret in H as [[y|] [H1 H]].
  - injection H as <- <-. csplit; auto; try lia.
  - apply IH in H as (H2 & H3 & H4). csplit; auto; try lia.
    intros j Hj. destruct (Nat.eq_dec j cur) as [->|]; auto. apply H4; lia.
Qed.
Lemma skip_loop_none {X} (probe : nat -> out (option X)) k : forall cur,
  skip_loop probe k cur = Ret None ->
  forall j, cur <= j < cur + k -> probe j = Ret None.
Proof.
  induction k as [|k IH]; simpl; intros cur H j Hj; [lia|].
  apply obind_ret in H as [[y|] [H1 H]]; [discriminate|].
  destruct (Nat.eq_dec j cur) as [->|]; auto. apply (IH (S cur)); auto; lia.
Qed.
Lemma skip_search_found {X} pos (probe : nat -> out (option X)) q x :
  skip_search s pos probe = Ret (Some (q, x)) ->
  pos < q < len /\ probe q = Ret (Some x) /\
  forall j, pos < j < q -> probe j = Ret None.
Proof.
  unfold skip_search. intros H. apply skip_loop_found in H as (H1 & H2 & H3).
  fold len in H1. csplit; auto; try lia.
Qed.
Lemma skip_search_none {X} pos (probe : nat -> out (option X)) :
  skip_search s pos probe = Ret None ->
  forall j, pos < j < len -> probe j = Ret None.
Proof.
  unfold skip_search. intros H j Hj.
  apply (skip_loop_none _ _ _ H). fold len. lia.
Qed.

Lemma nth_lt (i : nat) (t : T) : nth_error s i = Some t -> i < len.
Proof. intros H. apply nth_error_Some. congruence. Qed.

Lemma prefix_len (teq : T -> T -> bool) x (l : list T) :
  is_prefix teq x l = true -> List.length x <= List.length l.
Proof.
  revert l. induction x as [|a x IH]; intros [|b l]; simpl; intros H; try lia; try discriminate.
  apply andb_true_iff in H as [_ H]. apply IH in H. lia.
Qed.
Lemma starts_len (teq : T -> T -> bool) x i :
  i <= len -> starts_with teq x s i = true -> i + List.length x <= len.
Proof.
  unfold starts_with. intros Hi H. apply prefix_len in H.
  rewrite skipn_length in H. fold len in H. lia.
Qed.

Lemma probe_tok_some test pos t :
  probe_tok test s pos = Ret (Some t) -> nth_error s pos = Some t /\ test t = Ret true.
Proof.
  unfold probe_tok. destruct (nth_error s pos) as [t'|]; [|discriminate].
  intros H. apply obind_ret in H as [b [H1 H2]]. destruct b; [|discriminate].
  injection H2 as ->. auto.
Qed.
Lemma probe_sym_some teq x pos t :
  probe_sym teq x s pos = Ret (Some t) -> nth_error s pos = Some t /\ teq t x = true.
Proof.
  unfold probe_sym. destruct (nth_error s pos) as [t'|]; [|discriminate].
  destruct (teq t' x) eqn:H1; intros H; [|discriminate]. injection H as <-. auto.
Qed.
Lemma probe_lit_some teq x pos u :
  probe_lit teq x s pos = Ret (Some u) -> starts_with teq x s pos = true.
Proof. unfold probe_lit. destruct (starts_with teq x s pos); auto; discriminate. Qed.
Lemma probe_re_some {A} (m : list T -> nat -> option (nat * option A)) pos e v :
  probe_re m s pos = Some (e, v) -> m s pos = Some (e, Some v).
Proof.
  unfold probe_re. destruct (m s pos) as [[e' [v'|]]|]; try discriminate.
  intros H; injection H as <- <-; auto.
Qed.

(** ** The fast interpreter *)
Lemma len_eq : List.length s = len. Proof. reflexivity. Qed.

Lemma ltb_S pos k : 0 < k -> Nat.ltb pos (pos + k) = true.
Proof. intros. apply Nat.ltb_lt. lia. Qed.

Lemma ogood_here {A} (D : nat -> list (rop * nat) -> A -> Prop) v pos c x :
  pos <= len -> Cok pos c -> D pos [] v -> ogood D pos (ctx_mark c) (Ok v pos c x false).
Proof.
  intros. csplit; simpl; auto. symmetry. apply Nat.ltb_irrefl.
Qed.

Lemma fast_many_good {A} (p : pfast T A) (g : gram T V A) mk :
  (forall pos c r, pos <= len -> Cok pos c -> ctx_mark c = mk ->
     p s pos c = Ret r -> sgood (der g mk pos) pos mk r) ->
  forall n i con v pos c r,
  i <= pos <= len -> Cok pos c -> ctx_mark c = mk -> con = Nat.ltb i pos ->
  (forall k sk l, ederiv E s colrel _ (GMany g) mk pos k sk l ->
     ederiv E s colrel _ (GMany g) mk i k sk (v ++ l)) ->
  many_fast p n con v s pos c = Ret r -> sgood (der (GMany g) mk i) i mk r.
Proof.
  intros Hp n. induction n as [|n IH]; intros i con v pos c r Hi Hc Hm Hcon Hd H;
    simpl in H; [discriminate|].
  apply obind_ret in H as [r0 [H0 H]].
  apply Hp in H0; auto; [|lia]. destruct r0 as [o|e].
  - destruct H0 as (O1 & O2 & O3 & O4 & O5). destruct (ok_con o) eqn:Ho; [|discriminate].
    symmetry in O3. apply Nat.ltb_lt in O3.
    eapply IH in H; eauto; try lia.
    + symmetry. apply Nat.ltb_lt. lia.
    + intros k sk l Hl. rewrite <- app_assoc. simpl. apply Hd.
      change sk with ([] ++ sk). eapply ed_many_cons; eauto.
  - simpl in H0. destruct (er_con e); injection H as <-; simpl.
    + eapply lgood_mono; eauto; lia.
    + csplit; simpl; auto; try lia.
      unfold der. rewrite <- (app_nil_r v). apply Hd. constructor.
Qed.

Lemma fast_good n : forall A (g : gram T V A) pos c r,
  gok g -> pos <= len -> Cok pos c ->
  fast E n g s pos c = Ret r ->
  sgood (der g (ctx_mark c) pos) pos (ctx_mark c) r.
Proof.
  induction n as [|n IH]; intros A g pos c r Hg Hpos Hc H; simpl in H; [discriminate|].
  pose proof (gall_node _ _ _ Hg) as [Hwf Hl].
  destruct g; simpl in Hg, Hwf, Hl.
  - (* pure *) injection H as <-. apply ogood_here; auto. constructor.
  - unfold purefn_fast in H. apply obind_ret in H as [x [Hx H]]. injection H as <-.
    apply ogood_here; auto. constructor; auto.
  - injection H as <-. apply lgood_here; auto.
  - unfold eof_fast in H. destruct (Nat.eqb_spec pos (List.length s)); injection H as <-.
    + subst pos. apply ogood_here; auto. constructor.
    + apply lgood_here; auto.
  - unfold satisfy_fast in H. apply obind_ret in H as [[t|] [Ht H]]; injection H as <-.
    + apply probe_tok_some in Ht as [Ht1 Ht2]. pose proof (nth_lt _ _ Ht1).
      csplit; simpl; auto; try lia.
      * constructor; auto.
      * symmetry; apply ltb_S; lia.
      * eapply Cok_mono; eauto; lia.
    + apply lgood_here; auto.
  - unfold sym_fast in H. apply obind_ret in H as [[t|] [Ht H]]; injection H as <-.
    + apply probe_sym_some in Ht as [Ht1 Ht2]. pose proof (nth_lt _ _ Ht1).
      csplit; simpl; auto; try lia.
      * constructor; auto.
      * symmetry; apply ltb_S; lia.
      * eapply Cok_mono; eauto; lia.
    + apply lgood_here; auto.
  - unfold literal_fast in H. destruct (starts_with teq x s pos) eqn:Hx; injection H as <-.
    + pose proof (starts_len _ _ _ Hpos Hx). split; simpl; [constructor; auto|].
      split; [lia|]. split; [|split; [apply (Cok_upd pos); auto; lia|apply upd_mark]].
      symmetry; apply ltb_S. destruct x; simpl; [tauto|lia].
    + apply lgood_here; auto.
  - unfold regexp_fast in H. destruct (probe_re m s pos) as [[e v]|] eqn:Hx; injection H as <-.
    + apply probe_re_some in Hx. pose proof (Hwf _ _ _ _ Hpos Hx) as He. fold len in He.
      split; simpl; [constructor; auto|]. split; [lia|].
      split; [|split; [apply (Cok_upd pos); auto; lia|apply upd_mark]].
      destruct (Nat.eqb_spec e pos); simpl; symmetry.
      * apply Nat.ltb_ge; lia. * apply Nat.ltb_lt; lia.
    + apply lgood_here; auto.
  - (* fmap *) unfold fmap_fast in H. apply obind_ret in H as [r0 [H0 H]].
    eapply sgood_fmap; eauto; [|eapply IH; eauto; apply Hg].
    intros; eapply ed_fmap; eauto.
  - (* alt *) destruct Hg as [_ [Hg1 Hg2]].
    unfold alt_fast in H. apply obind_ret in H as [ra [Ha H]].
    apply IH in Ha; auto. destruct ra as [oa|ea].
    { injection H as <-. eapply sgood_imp; [|exact Ha]. intros; apply ed_alt_l; auto. }
    destruct (er_con ea). { injection H as <-. exact Ha. }
    apply obind_ret in H as [rb [Hb H]]. apply IH in Hb; auto.
    assert (Hb' : sgood (der (GAlt g1 g2) (ctx_mark c) pos) pos (ctx_mark c) rb).
    { eapply sgood_imp; [|exact Hb]. intros; apply ed_alt_r; auto. }
    destruct (sres_con rb). { injection H as <-. exact Hb'. }
    destruct rb as [ob|eb]; injection H as <-.
    + apply (sgood_set_exp _ _ _ _ (SOk ob)). exact Hb'.
    + exact Ha.
  - (* bind *) destruct Hg as [_ [Hg1 Hg2]].
    unfold bind_fast in H. apply obind_ret in H as [ra [Ha H]].
    apply IH in Ha; auto. destruct ra as [oa|ea].
    2:{ injection H as <-. exact Ha. }
    apply obind_ret in H as [rb [Hb H]]. injection H as <-.
    destruct Ha as (O1 & O2 & O3 & O4 & O5).
    apply IH in Hb; auto; try lia; try apply Hg2. rewrite O5 in Hb.
    apply (sgood_prepend _ pos (ok_pos oa)); auto; [lia|].
    eapply sgood_imp; [|exact Hb]. intros j sk v Hv.
    change sk with ([] ++ sk). eapply ed_bind; eauto.
  - (* seq *) destruct Hg as [_ [Hg1 Hg2]].
    unfold seq_fast in H. apply obind_ret in H as [ra [Ha H]].
    apply IH in Ha; auto. destruct ra as [oa|ea].
    2:{ injection H as <-. exact Ha. }
    cbv zeta in H.
    apply obind_ret in H as [rb [Hb H]]. apply obind_ret in H as [rc [Hrc H]].
    injection H as <-. destruct Ha as (O1 & O2 & O3 & O4 & O5).
    apply IH in Hb; auto; try lia; try apply Hg2. rewrite O5 in Hb.
    apply (sgood_prepend _ pos (ok_pos oa)); auto; [lia|].
    eapply sgood_fmap; [|exact Hb|exact Hrc]. intros j sk v w Hv Hw.
    injection Hw as <-. change sk with ([] ++ sk). eapply ed_seq; eauto.
  - (* maybe *) destruct Hg as [_ Hg].
    unfold maybe_fast in H. apply obind_ret in H as [r0 [H0 H]].
    apply IH in H0; auto. destruct r0 as [o|e].
    + eapply sgood_fmap; [|exact H0|exact H]. intros j sk v w Hv Hw.
      injection Hw as <-. constructor; auto.
    + destruct (er_con e); injection H as <-; [exact H0|].
      apply ogood_here; auto. constructor.
  - (* many *) destruct Hg as [_ Hg].
    eapply fast_many_good with (p := fast E n g) (pos := pos) (con := false) (v := []);
      eauto using Nat.ltb_irrefl, eq_sym.
    + intros pos' c' r' Hp' Hc' Hm' H'. apply IH in H'; auto. rewrite Hm' in H'. exact H'.
  - (* attempt *) destruct Hg as [_ Hg].
    unfold attempt_fast in H. apply obind_ret in H as [r0 [H0 H]].
    apply IH in H0; auto. destruct r0 as [o|e]; injection H as <-; auto.
    eapply sgood_imp; [|exact H0]. intros; constructor; auto.
  - (* label *) destruct Hg as [_ Hg].
    unfold label_fast in H. apply obind_ret in H as [r0 [H0 H]]. injection H as <-.
    apply IH in H0; auto. apply sgood_set_exp.
    eapply sgood_imp; [|exact H0]. intros; constructor; auto.
  - destruct Hg as [_ Hg]. unfold recover_fast in H. apply IH in H; auto.
    eapply sgood_imp; [|exact H]. intros; constructor; auto.
  - destruct Hg as [_ Hg]. unfold recover_with_fast in H. apply IH in H; auto.
    eapply sgood_imp; [|exact H]. intros; constructor; auto.
  - destruct Hg as [_ Hg]. unfold recover_with_fast in H. apply IH in H; auto.
    eapply sgood_imp; [|exact H]. intros; constructor; auto.
  - (* block *) destruct Hg as [_ Hg]. specialize (Hl I).
    unfold block_fast in H. cbv zeta in H.
    apply obind_ret in H as [r0 [H0 H]]. injection H as <-.
    assert (Hc' : Cok pos (update_loc c s pos)) by (apply (Cok_upd pos); auto; lia).
    apply IH in H0; auto using Cok_mark. simpl in H0.
    eapply sgood_set_ctx; [exact Hc'|apply upd_mark|].
    destruct (Cok_exact _ _ Hl Hc Hpos) as [_ Hcol].
    eapply sgood_imp; [|exact H0]. intros. eapply ed_block; eauto.
  - (* aligned *) destruct Hg as [_ Hg]. specialize (Hl I).
    unfold aligned_fast in H. cbv zeta in H.
    assert (Hc' : Cok pos (update_loc c s pos)) by (apply (Cok_upd pos); auto; lia).
    rewrite upd_mark in H.
    destruct (Cok_exact _ _ Hl Hc Hpos) as [Hloc Hcol].
    destruct (Z.eqb_spec (ctx_mark c) (loc_col (ctx_loc (update_loc c s pos)))) as [Heq|].
    { rewrite <- Heq in Hcol.
      apply IH in H; auto. rewrite upd_mark in H.
      eapply sgood_imp; [|exact H]. intros. apply ed_aligned; auto. }
    { injection H as <-. exists pos; auto. }
  - (* indented *) destruct Hg as [_ Hg]. specialize (Hl I).
    unfold indented_fast in H. cbv zeta in H.
    assert (Hc' : Cok pos (update_loc c s pos)) by (apply (Cok_upd pos); auto; lia).
    rewrite upd_mark in H.
    destruct (Cok_exact _ _ Hl Hc Hpos) as [Hloc Hcol].
    destruct (Z.eqb_spec (ctx_mark c + delta) (loc_col (ctx_loc (update_loc c s pos))))
      as [Heq|].
    + apply obind_ret in H as [r0 [H0 H]]. injection H as <-.
      apply IH in H0; auto using Cok_mark. simpl in H0.
      eapply sgood_set_ctx; [exact Hc'|apply upd_mark|].
      eapply sgood_imp; [|exact H0]. intros j sk v Hv.
      unfold der in *. rewrite <- Heq in *. apply ed_indented; auto.
    + injection H as <-. exists pos; auto.
  - (* delay *) apply IH in H; auto.
    eapply sgood_imp; [|exact H]. intros; constructor; auto.
  - discriminate.
Qed.

(** ** The recovering interpreter *)
Lemma resgood_of_s {A} (D : nat -> list (rop * nat) -> A -> Prop) pos mk rem r :
  sgood D pos mk r -> resgood D pos mk rem (sres_res r).
Proof. destruct r; simpl; auto. Qed.

Lemma rgood_ins {A} (D : nat -> list (rop * nat) -> A -> Prop) m v pos c lab x prio :
  Cok pos c -> pos <= len -> D pos [(Insert lab, pos)] v ->
  rgood D pos (ctx_mark c)
    (Repair 1 prio m [OpItem (Insert lab) (get_loc c s pos) x false] v pos c [] true).
Proof.
  intros Hc Hp HD. exists [(Insert lab, pos)]. csplit; simpl; auto.
  - constructor; auto. split; simpl; auto.
  - discriminate.
Qed.

Lemma rgood_skip {A} (D : nat -> list (rop * nat) -> A -> Prop) m v pos pos' c c' n x b :
  Cok pos c -> pos <= pos' <= len -> 0 < n ->
  D pos' [(Skip n, pos)] v -> Cok pos' c' -> ctx_mark c' = ctx_mark c ->
  rgood D pos (ctx_mark c)
    (Repair n (Some 0) m [OpItem (Skip n) (get_loc c s pos) x false] v pos' c' [] b).
Proof.
  intros Hc Hp Hn HD Hc' Hm'. exists [(Skip n, pos)]. csplit; simpl; auto; try lia.
  - constructor; auto. split; simpl; auto. apply Cok_loc; auto; lia.
  - discriminate.
  - unfold ops_cost; simpl; lia.
Qed.

Lemma full_many_good {A} (p : pfull T A) (g : gram T V A) mk ins :
  (forall pos c r, pos <= len -> Cok pos c -> ctx_mark c = mk ->
     p s pos c ins None = Ret r -> resgood (der g mk pos) pos mk None r) ->
  forall n i con v pos c r,
  i <= pos <= len -> Cok pos c -> ctx_mark c = mk -> con = Nat.ltb i pos ->
  (forall k sk l, ederiv E s colrel _ (GMany g) mk pos k sk l ->
     ederiv E s colrel _ (GMany g) mk i k sk (v ++ l)) ->
  many_full p n con v s pos c ins = Ret r -> resgood (der (GMany g) mk i) i mk None r.
Proof.
  intros Hp n. induction n as [|n IH]; intros i con v pos c r Hi Hc Hm Hcon Hd H;
    simpl in H; [discriminate|].
  apply obind_ret in H as [r0 [H0 H]].
  apply Hp in H0; auto; [|lia]. destruct r0 as [o|e|rc].
  - destruct H0 as (O1 & O2 & O3 & O4 & O5). destruct (ok_con o) eqn:Ho; [|discriminate].
    symmetry in O3. apply Nat.ltb_lt in O3.
    eapply IH in H; eauto; try lia.
    + symmetry. apply Nat.ltb_lt. lia.
    + intros k sk l Hl. rewrite <- app_assoc. simpl. apply Hd.
      change sk with ([] ++ sk). eapply ed_many_cons; eauto.
  - simpl in H0. destruct (er_con e); injection H as <-; simpl.
    + eapply lgood_mono; eauto; lia.
    + csplit; simpl; auto; try lia.
      unfold der. rewrite <- (app_nil_r v). apply Hd. constructor.
  - eapply (recgood_continue (der g mk pos) (fun _ p => der (GMany g) mk p)
      (der (GMany g) mk i)) with (mk := mk) in H.
    + exact H.
    + intros j sk1 a k sk2 w H1 H2. unfold der in *. apply Hd. eapply ed_many_cons; eauto.
    + intros a p' c' z r' Hp' Hc' Hm' H'. exists None.
      eapply IH in H'; eauto; try lia. symmetry; apply Nat.ltb_irrefl.
    + destruct H0 as [H01 H02]. split; [eapply lgood_mono; eauto; lia|].
      intros rep Hin. destruct (H02 _ Hin) as [G1 G2]. split.
      * eapply rgood_from; [|exact G1]. lia.
      * intros _. specialize (G2 eq_refl). lia.
Qed.

Lemma full_good n : forall A (g : gram T V A) pos c ins rem r,
  gok g -> pos <= len -> Cok pos c ->
  full E n g s pos c ins rem = Ret r ->
  resgood (der g (ctx_mark c) pos) pos (ctx_mark c) rem r.
Proof.
  induction n as [|n IH]; intros A g pos c ins rem r Hg Hpos Hc H; [discriminate|].
  pose proof H as HS.
  simpl in H.
  pose proof (gall_node _ _ _ Hg) as [Hwf Hl].
  pose proof (lgood_here _ _ Hc Hpos) as Hlh.
  assert (Hok : forall o, r = ROk o ->
    resgood (der g (ctx_mark c) pos) pos (ctx_mark c) rem r).
  { intros o ->. apply full_ok_iff in HS. apply fast_good in HS; auto. }
  clear HS.
  destruct g; simpl in Hg, Hwf, Hl.
  - (* pure *) injection H as <-. eapply Hok; eauto.
  - unfold purefn_full in H. apply obind_ret in H as [x [Hx H]].
    injection H as <-. eapply Hok; eauto.
  - injection H as <-. exact Hlh.
  - (* eof *) unfold eof_full in H. destruct (Nat.eqb_spec pos (List.length s)).
    + injection H as <-. eapply Hok; eauto.
    + destruct rem; injection H as <-; [|exact Hlh].
      split; [exact Hlh|]. intros rep [<-|[]]. split; [|discriminate].
      rewrite len_eq in *. apply rgood_skip; auto; try lia.
      * unfold der. change len with (List.length s). constructor.
        rewrite len_eq. lia.
      * eapply Cok_mono; eauto.
  - (* satisfy *) unfold satisfy_full in H. apply obind_ret in H as [[t|] [Ht H]].
    { injection H as <-. eapply Hok; eauto. }
    destruct rem; [|injection H as <-; exact Hlh].
    cbv zeta in H. apply obind_ret in H as [[[q t]|] [Hq H]]; injection H as <-; [|exact Hlh].
    apply skip_search_found in Hq as (Hq1 & Hq2 & _).
    apply probe_tok_some in Hq2 as [Hq2 Hq3].
    split; [exact Hlh|]. intros rep [<-|[]]. split; [|discriminate].
    apply rgood_skip; auto; try lia.
    + constructor; auto; lia.
    + apply (Cok_upd pos); auto; lia.
    + apply upd_mark.
  - (* sym *) unfold sym_full in H. apply obind_ret in H as [[t|] [Ht H]].
    { injection H as <-. eapply Hok; eauto. }
    destruct rem as [z|]; [|injection H as <-; exact Hlh].
    cbv zeta in H. apply obind_ret in H as [f [Hq H]].
    assert (Hins : forall rep, In rep (if (z =? 0)%Z then []
        else [make_insert z x pos c (get_loc c s pos) l [l]]) ->
        rgood (der (GSym teq x l) (ctx_mark c) pos) pos (ctx_mark c) rep /\
        (Some z = None -> pos < r_pos rep)).
    { intros rep Hin. destruct (z =? 0)%Z; [destruct Hin|].
      destruct Hin as [<-|[]]. split; [|discriminate].
      apply rgood_ins; auto. constructor. }
    destruct f as [[q t]|]; injection H as <-; (split; [exact Hlh|]); simpl; auto.
    apply skip_search_found in Hq as (Hq1 & Hq2 & _).
    apply probe_sym_some in Hq2 as [Hq2 Hq3].
    intros rep Hin. apply in_app_or in Hin as [Hin|[<-|[]]]; auto.
    split; [|discriminate].
    apply rgood_skip; auto; try lia.
    + constructor; auto; lia.
    + apply (Cok_upd pos); auto; lia.
    + apply upd_mark.
  - (* literal *) unfold literal_full in H. cbv zeta in H.
    destruct (starts_with teq x s pos) eqn:Hx; [injection H as <-; eapply Hok; eauto|].
    destruct rem as [z|]; [|injection H as <-; exact Hlh].
    apply obind_ret in H as [f [Hq H]].
    assert (Hins : forall rep, In rep (if (z =? 0)%Z then []
        else [make_insert z x pos c (get_loc c s pos) l [l]]) ->
        rgood (der (GLiteral teq x l) (ctx_mark c) pos) pos (ctx_mark c) rep /\
        (Some z = None -> pos < r_pos rep)).
    { intros rep Hin. destruct (z =? 0)%Z; [destruct Hin|].
      destruct Hin as [<-|[]]. split; [|discriminate].
      apply rgood_ins; auto. constructor. }
    destruct f as [[q u]|]; injection H as <-; (split; [exact Hlh|]); simpl; auto.
    apply skip_search_found in Hq as (Hq1 & Hq2 & _).
    apply probe_lit_some in Hq2.
    assert (Hql : q <= len) by lia. pose proof (starts_len _ _ _ Hql Hq2).
    intros rep Hin. apply in_app_or in Hin as [Hin|[<-|[]]]; auto.
    split; [|discriminate].
    apply rgood_skip; auto; try lia.
    + constructor; auto; lia.
    + apply (Cok_upd pos); auto; lia.
    + apply upd_mark.
  - (* regexp *) unfold regexp_full in H.
    destruct (probe_re m s pos) as [[e v]|] eqn:Hx; [injection H as <-; eapply Hok; eauto|].
    destruct rem as [z|]; [|injection H as <-; exact Hlh].
    cbv zeta in H. apply obind_ret in H as [[[q [e v]]|] [Hq H]]; injection H as <-; [|exact Hlh].
    apply skip_search_found in Hq as (Hq1 & Hq2 & _). injection Hq2 as Hq2.
    apply probe_re_some in Hq2.
    assert (Hql : q <= len) by lia. pose proof (Hwf _ _ _ _ Hql Hq2) as He. fold len in He.
    split; [exact Hlh|]. intros rep [<-|[]]. split; [|discriminate].
    apply rgood_skip; auto; try lia.
    + constructor; auto; lia.
    + apply (Cok_upd pos); auto; lia.
    + apply upd_mark.
  - (* fmap *) unfold fmap_full in H. apply obind_ret in H as [r0 [H0 H]].
    eapply resgood_fmap; eauto; [|eapply IH; eauto; apply Hg].
    intros; eapply ed_fmap; eauto.
  - (* alt *) destruct Hg as [_ [Hg1 Hg2]].
    assert (HL : forall rem r, resgood (der g1 (ctx_mark c) pos) pos (ctx_mark c) rem r ->
      resgood (der (GAlt g1 g2) (ctx_mark c) pos) pos (ctx_mark c) rem r).
    { intros rem' r'. apply resgood_imp. intros; apply ed_alt_l; auto. }
    assert (HR : forall rem r, resgood (der g2 (ctx_mark c) pos) pos (ctx_mark c) rem r ->
      resgood (der (GAlt g1 g2) (ctx_mark c) pos) pos (ctx_mark c) rem r).
    { intros rem' r'. apply resgood_imp. intros; apply ed_alt_r; auto. }
    assert (Hnone : forall A (D : nat -> list (rop * nat) -> A -> Prop) r,
      resgood D pos (ctx_mark c) None r -> resgood D pos (ctx_mark c) rem r).
    { intros B D r' Hr. destruct r' as [| |rc]; simpl in *; auto.
      destruct Hr as [Hr1 Hr2]. split; auto. intros rep Hin.
      destruct (Hr2 _ Hin). auto. }
    unfold alt_full in H. apply obind_ret in H as [ra [Ha H]].
    apply IH in Ha; auto. apply HL in Ha.
    assert (Hcase : forall (la : loc) (xa : list string) (ca : bool), lgood pos la ->
      (if ca then Ret ra : out (res T A) else
        rb <- full E n g2 s pos c ins None;;
        if res_con rb then Ret rb else
        let expected := Append xa (res_exp rb) in
        match rb with
        | ROk ob => Ret (ROk (ok_set_exp expected ob))
        | _ => alt_recover (full E n g1) (full E n g2) la expected s pos c ins rem
        end) = Ret r ->
      resgood (der (GAlt g1 g2) (ctx_mark c) pos) pos (ctx_mark c) rem r).
    { intros la xa ca Hla Hr. destruct ca; [injection Hr as <-; auto|].
      apply obind_ret in Hr as [rb [Hb Hr]]. apply IH in Hb; auto. apply HR in Hb.
      destruct (res_con rb); [injection Hr as <-; auto|]. cbv zeta in Hr.
      assert (Hrec : forall x, alt_recover (full E n g1) (full E n g2) la x s pos c ins rem = Ret r ->
         resgood (der (GAlt g1 g2) (ctx_mark c) pos) pos (ctx_mark c) rem r).
      { intros x Hr'. unfold alt_recover in Hr'. destruct rem as [z|].
        2:{ injection Hr' as <-. exact Hla. }
        apply obind_ret in Hr' as [rra [Hra Hr']]. apply obind_ret in Hr' as [rrb [Hrb Hr']].
        apply IH in Hra; auto. apply HL in Hra. apply IH in Hrb; auto. apply HR in Hrb.
        destruct rra as [|era|rca]; destruct rrb as [|erb|rcb]; injection Hr' as <-;
          try exact Hla; try (apply (resgood_set_exp _ _ _ _ _ (RRec _)); auto).
        apply recgood_join; auto. }
      destruct rb as [ob|eb|rcb]; eauto.
      injection Hr as <-. apply (resgood_set_exp _ _ _ _ _ (ROk ob)). auto. }
    destruct ra as [oa|[la xa ca]|[rsa ma la xa ca]].
    + injection H as <-. auto.
    + apply (Hcase la xa ca Ha H).
    + apply (Hcase la xa ca (proj1 Ha) H).
  - (* bind *) destruct Hg as [_ [Hg1 Hg2]].
    unfold bind_full in H. apply obind_ret in H as [ra [Ha H]].
    apply IH in Ha; auto. destruct ra as [oa|ea|rca].
    + destruct Ha as (O1 & O2 & O3 & O4 & O5).
      assert (Hb : exists rem' rb, (ok_con oa = true \/ rem' = rem) /\
         full E n (f (ok_val oa)) s (ok_pos oa) (ok_ctx oa) ins rem' = Ret rb /\
         r = res_prepend (ok_exp oa) (ok_con oa) rb).
      { destruct (ok_con oa).
        - apply obind_ret in H as [rb [Hb H]]. injection H as <-. exists (Some ins), rb; auto.
        - apply obind_ret in H as [rb [Hb H]]. injection H as <-. exists rem, rb; auto. }
      destruct Hb as (rem' & rb & Hrem & Hb & ->).
      apply IH in Hb; auto; try lia; try apply Hg2. rewrite O5 in Hb.
      apply (resgood_prepend _ pos (ok_pos oa) _ rem rem'); auto; [lia|].
      eapply resgood_imp; [|exact Hb]. intros j sk v Hv.
      change sk with ([] ++ sk). eapply ed_bind; eauto.
    + injection H as <-. exact Ha.
    + eapply (recgood_continue (der g (ctx_mark c) pos)
        (fun v p => der (f v) (ctx_mark c) p)); [| |exact Ha|exact H].
      * intros. eapply ed_bind; eauto.
      * intros v p c' z r' Hp' Hc' Hm' H'. exists (Some z). apply IH in H'; auto; try apply Hg2.
        rewrite Hm' in H'. exact H'.
  - (* seq *) destruct Hg as [_ [Hg1 Hg2]].
    unfold seq_full in H. apply obind_ret in H as [ra [Ha H]].
    apply IH in Ha; auto. destruct ra as [oa|ea|rca].
    + destruct Ha as (O1 & O2 & O3 & O4 & O5). cbv zeta in H.
      apply obind_ret in H as [rb [Hb H]]. apply obind_ret in H as [rc [Hrc H]].
      injection H as <-. apply IH in Hb; auto; try lia; try apply Hg2. rewrite O5 in Hb.
      apply (resgood_prepend _ pos (ok_pos oa) _ rem (if ok_con oa then Some ins else rem));
        auto; [lia|destruct (ok_con oa); auto|].
      eapply resgood_fmap; [|exact Hb|exact Hrc]. intros j sk v w Hv Hw.
      injection Hw as <-. change sk with ([] ++ sk). eapply ed_seq; eauto.
    + injection H as <-. exact Ha.
    + eapply (recgood_continue (der g1 (ctx_mark c) pos)
        (fun v p => der g2 (ctx_mark c) p)); [| |exact Ha|exact H].
      * intros. eapply ed_seq; eauto.
      * intros v p c' z r' Hp' Hc' Hm' H'. exists (Some z). apply IH in H'; auto; try apply Hg2.
        rewrite Hm' in H'. exact H'.
  - (* maybe *) destruct Hg as [_ Hg].
    unfold maybe_full in H. apply obind_ret in H as [r0 [H0 H]].
    pose proof H0 as HN. apply IH in H0; auto.
    assert (HX : forall r', res_fmap (fun v : A => Ret (Some v)) r0 = Ret r' ->
      resgood (der (GMaybe g) (ctx_mark c) pos) pos (ctx_mark c) rem r').
    { intros r' Hr.
      assert (Hr' : resgood (der (GMaybe g) (ctx_mark c) pos) pos (ctx_mark c) None r').
      { eapply resgood_fmap; [|exact H0|exact Hr].
        intros j sk v w Hv Hw. injection Hw as <-. constructor; auto. }
      destruct r' as [| |rc]; simpl in *; auto.
      destruct Hr' as [Hr1 Hr2]; split; auto. intros rep Hin. destruct (Hr2 _ Hin); auto. }
    destruct r0 as [o|e|rc].
    + apply HX; exact H.
    + destruct (res_con (RErr e)); [apply HX; exact H|]. injection H as <-. eapply Hok; eauto.
    + destruct (res_con (RRec rc)); [apply HX; exact H|]. injection H as <-. eapply Hok; eauto.
  - (* many *) destruct Hg as [_ Hg].
    assert (HX : resgood (der (GMany g) (ctx_mark c) pos) pos (ctx_mark c) None r).
    { eapply full_many_good with (p := full E n g) (pos := pos) (con := false) (v := []);
      eauto using Nat.ltb_irrefl, eq_sym.
      + intros pos' c' r' Hp' Hc' Hm' H'. apply IH in H'; auto. rewrite Hm' in H'. exact H'. }
    destruct r as [| |rc]; simpl in *; auto.
    destruct HX as [Hr1 Hr2]; split; auto. intros rep Hin. destruct (Hr2 _ Hin); auto.
  - (* attempt *) destruct Hg as [_ Hg].
    unfold attempt_full in H. destruct rem as [z|].
    + apply IH in H; auto. eapply resgood_imp; [|exact H]. intros; constructor; auto.
    + apply obind_ret in H as [r0 [H0 H]]. apply fast_good in H0; auto.
      destruct r0 as [o|e]; injection H as <-; [eapply Hok; eauto|exact H0].
  - (* label *) destruct Hg as [_ Hg].
    unfold label_full in H. apply obind_ret in H as [r0 [H0 H]]. injection H as <-.
    apply IH in H0; auto. apply resgood_set_exp.
    eapply resgood_imp; [|exact H0]. intros; constructor; auto.
  - (* recover *) destruct Hg as [_ Hg].
    unfold recover_full in H. apply obind_ret in H as [r0 [H0 H]].
    apply IH in H0; auto.
    assert (H0' : resgood (der (GRecover g) (ctx_mark c) pos) pos (ctx_mark c) rem r0)
      by (eapply resgood_imp; [|exact H0]; intros; constructor; auto).
    destruct r0 as [o|e|rc]; injection H as <-; auto.
    destruct H0' as [R1 R2]. split; auto. simpl. intros rep Hin.
    apply in_map_iff in Hin as (r0 & <- & Hin). destruct (R2 _ Hin) as [G1 G2].
    split; auto.
  - (* recover_with *) destruct Hg as [_ Hg].
    unfold recover_with_full in H. destruct rem as [z|].
    2:{ apply IH in H; auto. eapply resgood_imp; [|exact H]; intros; constructor; auto. }
    apply obind_ret in H as [r0 [H0 H]]. apply IH in H0; auto.
    assert (H0' : resgood (der (GRecoverWith g x l) (ctx_mark c) pos) pos (ctx_mark c) (Some z) r0)
      by (eapply resgood_imp; [|exact H0]; intros; constructor; auto).
    destruct r0 as [o|e|rc].
    + injection H as <-; auto.
    + destruct (res_con (RErr e)); [injection H as <-; auto|].
      destruct (z =? 0)%Z; [injection H as <-; auto|]. simpl in H. injection H as <-.
      split; [exact Hlh|]. intros rep [<-|[]]. split; [|discriminate].
      apply rgood_ins; auto. apply ed_with_ins.
    + destruct (res_con (RRec rc)); [injection H as <-; auto|].
      destruct (z =? 0)%Z; [injection H as <-; auto|]. simpl in H. injection H as <-.
      split; [exact Hlh|]. intros rep [<-|Hin].
      * split; [|discriminate]. apply rgood_ins; auto. apply ed_with_ins.
      * apply H0'; auto.
  - (* recover_with_fn *) destruct Hg as [_ Hg].
    unfold recover_with_full in H. destruct rem as [z|].
    2:{ apply IH in H; auto. eapply resgood_imp; [|exact H]; intros; constructor; auto. }
    apply obind_ret in H as [r0 [H0 H]]. apply IH in H0; auto.
    assert (H0' : resgood (der (GRecoverWithFn g fn lab) (ctx_mark c) pos) pos (ctx_mark c) (Some z) r0)
      by (eapply resgood_imp; [|exact H0]; intros; constructor; auto).
    destruct r0 as [o|e|rc].
    + injection H as <-; auto.
    + destruct (res_con (RErr e)); [injection H as <-; auto|].
      destruct (z =? 0)%Z; [injection H as <-; auto|]. apply obind_ret in H as [x [Hx H]].
      simpl in H. injection H as <-.
      split; [exact Hlh|]. intros rep [<-|[]]. split; [|discriminate].
      apply rgood_ins; auto. apply ed_withfn_ins; auto.
    + destruct (res_con (RRec rc)); [injection H as <-; auto|].
      destruct (z =? 0)%Z; [injection H as <-; auto|]. apply obind_ret in H as [x [Hx H]].
      simpl in H. injection H as <-.
      split; [exact Hlh|]. intros rep [<-|Hin].
      * split; [|discriminate]. apply rgood_ins; auto. apply ed_withfn_ins; auto.
      * apply H0'; auto.
  - (* block *) destruct Hg as [_ Hg]. specialize (Hl I).
    unfold block_full in H. cbv zeta in H.
    apply obind_ret in H as [r0 [H0 H]]. injection H as <-.
    assert (Hc' : Cok pos (update_loc c s pos)) by (apply (Cok_upd pos); auto; lia).
    apply IH in H0; auto using Cok_mark. simpl in H0.
    eapply resgood_set_ctx; [exact Hc'|apply upd_mark|].
    destruct (Cok_exact _ _ Hl Hc Hpos) as [_ Hcol].
    eapply resgood_imp; [|exact H0]. intros. eapply ed_block; eauto.
  - (* aligned *) destruct Hg as [_ Hg]. specialize (Hl I).
    unfold aligned_full in H. cbv zeta in H.
    assert (Hc' : Cok pos (update_loc c s pos)) by (apply (Cok_upd pos); auto; lia).
    rewrite upd_mark in H.
    destruct (Cok_exact _ _ Hl Hc Hpos) as [Hloc Hcol].
    destruct (Z.eqb_spec (ctx_mark c) (loc_col (ctx_loc (update_loc c s pos)))) as [Heq|].
    { rewrite <- Heq in Hcol.
      apply IH in H; auto. rewrite upd_mark in H.
      eapply resgood_imp; [|exact H]. intros. apply ed_aligned; auto. }
    { injection H as <-. exists pos; auto. }
  - (* indented *) destruct Hg as [_ Hg]. specialize (Hl I).
    unfold indented_full in H. cbv zeta in H.
    assert (Hc' : Cok pos (update_loc c s pos)) by (apply (Cok_upd pos); auto; lia).
    rewrite upd_mark in H.
    destruct (Cok_exact _ _ Hl Hc Hpos) as [Hloc Hcol].
    destruct (Z.eqb_spec (ctx_mark c + delta) (loc_col (ctx_loc (update_loc c s pos))))
      as [Heq|].
    + apply obind_ret in H as [r0 [H0 H]]. injection H as <-.
      apply IH in H0; auto using Cok_mark. simpl in H0.
      eapply resgood_set_ctx; [exact Hc'|apply upd_mark|].
      eapply resgood_imp; [|exact H0]. intros j sk v Hv.
      unfold der in *. rewrite <- Heq in *. apply ed_indented; auto.
    + injection H as <-. exists pos; auto.
  - (* delay *) apply IH in H; auto.
    eapply resgood_imp; [|exact H]. intros; constructor; auto.
  - discriminate.
Qed.

End EditInv.
