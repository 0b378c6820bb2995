(** Expected values of every error, with repairs (C83). *)
From Verif Require Export LaterSpec LL RecProofs EditSpec.

Section Later.
Context {T : Type} {V : nat -> Type}.
Variable E : env T V.
Notation gram := (gram T V).
Notation word := (list (T + string)).
Hypothesis HE : wf_env E.
Notation compl := (everywhere E (mendable_node E)).
Notation afree := (attempt_free E).
Variable s : list T.
Variable at_ : nat -> loc.
Notation len := (List.length s).
Notation may := (may_come E).
Notation sl i j := (map (@inl T string) (slice s i j)).

Lemma may_sub A B (p : gram A) (g : gram B) w0 w l :
  (forall C (q : gram C), occurs E q A p -> occurs E q B g) ->
  (forall u v, lang E A p u v -> exists w' v', lang E B g (w0 ++ u ++ w') v') ->
  may p w l -> may g (w0 ++ w) l.
Proof.
  intros Ho Hl (C & q & H1 & H2 & H3). exists C, q. split; [auto|]. split; [auto|].
  intros u v Hu. destruct (H3 u v Hu) as (w1 & v1 & H4). destruct (Hl _ _ H4) as (w2 & v2 & H5).
  exists (w1 ++ w2), v2. rewrite <- !app_assoc in *. exact H5.
Qed.
Lemma may_in A B (p : gram A) (g : gram B) w l :
  (forall C (q : gram C), occurs E q A p -> occurs E q B g) ->
  (forall u v, lang E A p u v -> exists w' v', lang E B g (u ++ w') v') ->
  may p w l -> may g w l.
Proof. intros H1 H2. apply (may_sub A B p g [] w l); auto. Qed.
Lemma may_here A (g : gram A) l : called A g l -> may g [] l.
Proof.
  intros H. exists A, g. split; [constructor|]. split; [auto|]. intros u v Hu. exists [], v.
  rewrite app_nil_r. exact Hu.
Qed.

(** *** operations told by a script *)
Definition reported (P : word -> string -> Prop) (o : opitem) (i : nat) (w : word) : Prop :=
  op_loc o = at_ i /\ (forall l, In l (op_exp o) -> P w l) /\ (op_con o = false -> w = []).
Fixpoint told (P : word -> string -> Prop) (i : nat) (w : word) (es : list (edit T))
    (ops : list opitem) : Prop :=
  match es with
  | [] => ops = []
  | EKeep t :: es => told P (i + 1) (w ++ [inl t]) es ops
  | ESkip ts :: es => exists o ops', ops = o :: ops' /\ op_op o = Skip (List.length ts) /\
      reported P o i w /\ told P (i + List.length ts) w es ops'
  | EIns lb x :: es => exists o ops', ops = o :: ops' /\ op_op o = Insert lb /\
      reported P o i w /\ told P i (w ++ x) es ops'
  end.
Lemma told_map (P P' : word -> string -> Prop) (w0 : word) (f : opitem -> opitem) :
  (forall o, op_op (f o) = op_op o) ->
  forall es i w ops,
  (forall o j w', In o ops -> reported P o j w' -> reported P' (f o) j (w0 ++ w')) ->
  told P i w es ops -> told P' i (w0 ++ w) es (map f ops).
Proof.
  intros Hf. induction es as [|e es IH]; intros i w ops HP H.
  - simpl in *. subst. reflexivity.
  - destruct e as [t|ts|lb x]; cbn [told] in *.
    + rewrite <- app_assoc. apply IH; auto.
    + destruct H as (o & ops' & -> & H1 & H2 & H3). exists (f o), (map f ops').
      split; [reflexivity|]. split; [rewrite Hf; auto|]. split; [apply HP; simpl; auto|].
      apply IH; auto. intros; apply HP; simpl; auto.
    + destruct H as (o & ops' & -> & H1 & H2 & H3). exists (f o), (map f ops').
      split; [reflexivity|]. split; [rewrite Hf; auto|]. split; [apply HP; simpl; auto|].
      rewrite <- app_assoc. apply IH; auto. intros; apply HP; simpl; auto.
Qed.
Lemma told_app P es1 es2 : forall i w ops1 ops2,
  told P i w es1 ops1 -> told P (i + List.length (edits_in es1)) (w ++ edits_out es1) es2 ops2 ->
  told P i w (es1 ++ es2) (ops1 ++ ops2).
Proof.
  induction es1 as [|e es IH]; intros i w ops1 ops2 H1 H2.
  - simpl in *. subst. rewrite Nat.add_0_r, app_nil_r in H2. exact H2.
  - destruct e as [t|ts|lb x]; cbn [told app] in *.
    + apply IH; auto. unfold edits_in, edits_out in *. cbn in H2. rewrite <- app_assoc.
      replace (i + 1 + List.length (flat_map edit_in es)) with (i + S (List.length (flat_map edit_in es))) by lia. exact H2.
    + destruct H1 as (o & ops' & -> & K1 & K2 & K3). exists o, (ops' ++ ops2).
      split; [reflexivity|]. split; [auto|]. split; [auto|]. apply IH; auto.
      unfold edits_in, edits_out in *. cbn in H2. rewrite app_length in H2.
      replace (i + List.length ts + List.length (flat_map edit_in es)) with (i + (List.length ts + List.length (flat_map edit_in es))) by lia. exact H2.
    + destruct H1 as (o & ops' & -> & K1 & K2 & K3). exists o, (ops' ++ ops2).
      split; [reflexivity|]. split; [auto|]. split; [auto|]. apply IH; auto.
      unfold edits_in, edits_out in *. cbn in H2. rewrite <- app_assoc. exact H2.
Qed.
Lemma told_keep P u : forall i w, told P i w (map EKeep u) [].
Proof. induction u as [|t u IH]; intros i w; [reflexivity|]. cbn [map told]. apply IH. Qed.

(** *** repairs *)
Definition closed {A} (r : offer A) : Prop :=
  f_con r = true /\ forall o, In o (f_ops r) -> op_con o = true.
Definition narr {A} (g : gram A) (i : nat) (r : offer A) : Prop := exists es,
  edits_in es = slice s i (f_pos r) /\ i <= f_pos r <= len /\ lang E A g (edits_out es) (f_val r) /\
  edits_from E g es /\ told (may g) i [] es (f_ops r) /\
  (forall l, In l (f_exp r) -> may g (edits_out es) l) /\ (f_con r = false -> edits_out es = []).

Lemma from_in A B (p : gram A) (g : gram B) es :
  (forall C (q : gram C), occurs E q A p -> occurs E q B g) -> edits_from E p es -> edits_from E g es.
Proof. intros Ho H l w Hin. destruct (H l w Hin) as (C & q & H1 & H2). exists C, q; auto. Qed.
Lemma from_app A (g : gram A) a b : edits_from E g a -> edits_from E g b -> edits_from E g (a ++ b).
Proof. intros Ha Hb l w Hin. apply in_app_or in Hin as [H|H]; auto. Qed.
Lemma from_keep A (g : gram A) u : edits_from E g (map EKeep u).
Proof. intros l w Hin. apply in_map_iff in Hin as (t & Ht & _). discriminate. Qed.

(** the same repair, seen from a larger parser; the operations and what is pending may be
    renamed as long as nothing was read or written *)
Lemma narr_wrap A B (p : gram A) (g : gram B) i (r : offer A) (r' : offer B) (f : opitem -> opitem) :
  (forall C (q : gram C), occurs E q A p -> occurs E q B g) ->
  (forall u v, lang E A p u v -> exists w' v', lang E B g (u ++ w') v') ->
  (forall u, lang E A p u (f_val r) -> lang E B g u (f_val r')) ->
  f_pos r' = f_pos r -> f_ops r' = map f (f_ops r) -> f_con r' = f_con r ->
  (forall o, f o = o \/
    (op_con o = false /\ op_op (f o) = op_op o /\ op_loc (f o) = op_loc o /\ forall l, In l (op_exp (f o)) -> may g [] l)) ->
  (f_exp r' = f_exp r \/ (f_con r = false /\ forall l, In l (f_exp r') -> may g [] l)) ->
  narr p i r -> narr g i r'.
Proof.
  intros Ho Hm Hv E1 E2 E3 Hf Hx (es & K1 & K2 & K3 & K4 & K5 & K6 & K7).
  exists es. rewrite E1, E2, E3. split; [auto|]. split; [auto|]. split; [auto|].
  split; [eapply from_in; eauto|]. split; [|split; auto].
  - apply (told_map (may p) (may g) [] f); auto.
    + intros o. destruct (Hf o) as [-> |(_ & H & _)]; auto.
    + intros o j w' _ (R1 & R2 & R3). destruct (Hf o) as [-> |(F1 & F2 & F3 & F4)].
      * split; [auto|]. split; [|auto]. intros l Hl. apply (may_in A B p g); auto.
      * pose proof (R3 F1) as ->. split; [congruence|]. split; auto.
  - intros l Hl. destruct Hx as [Hx|[Hc Hx]].
    + rewrite Hx in Hl. apply (may_in A B p g); auto.
    + rewrite (K7 Hc). auto.
Qed.

(** *** after a success *)
Lemma may_after A B C (p : gram A) (q : gram B) (g : gram C) i j v l w :
  (forall D (r : gram D), occurs E r B q -> occurs E r C g) ->
  lang E A p (sl i j) v ->
  (forall w w' v', lang E A p w v -> lang E B q w' v' -> exists v'', lang E C g (w ++ w') v'') ->
  may q w l -> may g (sl i j ++ w) l.
Proof.
  intros Oq Hv Hj. apply may_sub; auto. intros u v' Hu. destruct (Hj _ _ _ Hv Hu) as (v'' & K).
  exists [], v''. rewrite app_nil_r. exact K.
Qed.
Lemma narr_after A B C (p : gram A) (q : gram B) (g : gram C) (h : B -> C) i j v X (r : offer B) :
  i <= j -> j <= len ->
  (forall D (r : gram D), occurs E r A p -> occurs E r C g) ->
  (forall D (r : gram D), occurs E r B q -> occurs E r C g) ->
  (forall u v', lang E A p u v' -> exists w' v'', lang E C g (u ++ w') v'') ->
  (forall w w' v', lang E A p w v -> lang E B q w' v' -> lang E C g (w ++ w') (h v')) ->
  lang E A p (sl i j) v -> (forall l, In l X -> may p (sl i j) l) ->
  narr q j r -> narr g i (f_with (f_after (Nat.ltb i j) X r) (h (f_val r))).
Proof.
  intros Hij Hj Op Oq Hp Hq Hv HX (es & K1 & K2 & K3 & K4 & K5 & K6 & K7).
  assert (Hq' : forall w w' v', lang E A p w v -> lang E B q w' v' -> exists v'', lang E C g (w ++ w') v'')
    by (intros; eexists; eapply Hq; eauto).
  assert (HX' : forall l, In l X -> may g (sl i j) l)
    by (intros l Hl; apply (may_in A C p g); auto).
  destruct (edits_keep (slice s i j) i) as (I1 & I2 & I3).
  exists (map EKeep (slice s i j) ++ es). cbn [f_pos f_with f_after f_val f_ops f_exp f_con].
  rewrite edits_in_app, edits_out_app, I1, I2, K1.
  split; [apply slice_app; lia|]. split; [lia|]. split; [apply Hq; auto|].
  split; [apply from_app; [apply from_keep|eapply from_in; eauto]|]. split; [|split].
  - replace (map (op_after (Nat.ltb i j) X) (f_ops r)) with ([] ++ map (op_after (Nat.ltb i j) X) (f_ops r)) by reflexivity.
    apply told_app; [apply told_keep|]. rewrite I1, I2, slice_len by auto.
    replace (i + (j - i)) with j by lia. cbn [app].
    pose proof (told_map (may q) (may g) (sl i j) (op_after (Nat.ltb i j) X)) as TM.
    specialize (TM ltac:(intros o; unfold op_after; destruct (op_con o); reflexivity) es j []).
    rewrite app_nil_r in TM. apply TM; auto.
    intros o k w' _ (R1 & R2 & R3). unfold op_after. destruct (op_con o) eqn:Eo.
    + split; [auto|]. split; [|congruence]. intros l Hl. eapply may_after; eauto.
    + specialize (R3 eq_refl). subst w'. rewrite app_nil_r. split; [auto|]. cbn [op_exp op_con]. split.
      * intros l Hl. apply in_app_or in Hl as [Hl|Hl]; auto. rewrite <- (app_nil_r (sl i j)).
        eapply may_after; eauto.
      * intros H. apply Nat.ltb_ge in H. assert (i = j) as <- by lia. rewrite slice_nil. reflexivity.
  - intros l Hl. destruct (f_con r) eqn:Er.
    + eapply may_after; eauto.
    + rewrite (K7 eq_refl), app_nil_r. apply in_app_or in Hl as [Hl|Hl]; auto.
      rewrite <- (app_nil_r (sl i j)). eapply may_after; eauto. rewrite <- (K7 eq_refl). auto.
  - intros H. apply orb_false_elim in H as [H1 H2]. rewrite (K7 H1). apply Nat.ltb_ge in H2.
    assert (i = j) as <- by lia. rewrite slice_nil. reflexivity.
Qed.
Lemma closed_after {A B} b X (r : offer A) (v : B) : b = true \/ closed r -> closed (f_with (f_after b X r) v).
Proof.
  intros H. split; cbn.
  - destruct H as [-> |[-> _]]; auto using orb_true_r.
  - intros o Ho. apply in_map_iff in Ho as (o' & <- & Ho). unfold op_after.
    destruct (op_con o') eqn:Eo; auto. destruct H as [-> |[_ H]]; auto. rewrite (H _ Ho) in Eo. discriminate.
Qed.

Lemma closed_same {A} b X (r : offer A) : closed r -> f_after b X r = r.
Proof.
  intros [H1 H2]. unfold f_after. rewrite H1. cbn [orb].
  assert (M : map (op_after b X) (f_ops r) = f_ops r).
  { rewrite <- (map_id (f_ops r)) at 2. apply map_ext_in. intros o Ho. unfold op_after. rewrite (H2 _ Ho). reflexivity. }
  rewrite M. destruct r; cbn in *. subst. reflexivity.
Qed.

(** *** after a repair *)
Section Then.
Context {A B C : Type} (p : gram A) (k : A -> gram B) (g : gram C) (merge : A -> B -> C) (i : nat).
Hypothesis Op : forall D (r : gram D), occurs E r A p -> occurs E r C g.
Hypothesis Ok_ : forall v D (r : gram D), occurs E r B (k v) -> occurs E r C g.
Hypothesis Hp : forall u v, lang E A p u v -> exists w' v', lang E C g (u ++ w') v'.
Hypothesis Hk : forall w v w' v', lang E A p w v -> lang E B (k v) w' v' -> lang E C g (w ++ w') (merge v v').
Lemma may_then w v w' l : lang E A p w v -> may (k v) w' l -> may g (w ++ w') l.
Proof.
  intros Hw. apply may_sub; [apply Ok_|]. intros u v' Hu. exists [], (merge v v').
  rewrite app_nil_r. apply Hk; auto.
Qed.
Lemma told_in es : forall j w ops, told (may p) j w es ops -> told (may g) j w es ops.
Proof.
  intros j w ops H. rewrite <- (map_id ops). apply (told_map (may p) (may g) [] (fun o => o)); auto.
  intros o j' w' _ (R1 & R2 & R3). split; [auto|]. split; auto. intros l Hl. apply (may_in A C p g); auto.
Qed.
Lemma narr_then_succ ins (r : offer A) w j Y :
  narr p i r -> f_pos r <= j -> j <= len -> lang E B (k (f_val r)) (sl (f_pos r) j) w ->
  (forall l, In l Y -> may (k (f_val r)) (sl (f_pos r) j) l) ->
  narr g i (f_then_succ ins merge r w j Y).
Proof.
  intros (es & K1 & K2 & K3 & K4 & K5 & K6 & K7) Hj1 Hj2 Hw HY.
  destruct (edits_keep (slice s (f_pos r) j) (f_pos r)) as (I1 & I2 & I3).
  exists (es ++ map EKeep (slice s (f_pos r) j)). cbn [f_pos f_then_succ f_val f_ops f_exp f_con].
  rewrite edits_in_app, edits_out_app, I1, I2, K1.
  split; [apply slice_app; lia|]. split; [lia|]. split; [apply Hk; auto|].
  split; [apply from_app; [eapply from_in; eauto|apply from_keep]|]. split; [|split].
  - rewrite <- (app_nil_r (f_ops r)). apply told_app; [apply told_in; auto|apply told_keep].
  - intros l Hl. destruct (Nat.ltb_spec (f_pos r) j) as [L|L].
    + eapply may_then; eauto.
    + apply in_app_or in Hl as [Hl|Hl]; [|eapply may_then; eauto].
      assert (j = f_pos r) as -> by lia. rewrite slice_nil, app_nil_r. apply (may_in A C p g); auto.
  - intros H. apply orb_false_elim in H as [H1 H2]. rewrite (K7 H1). apply Nat.ltb_ge in H2.
    assert (j = f_pos r) as -> by lia. rewrite slice_nil. reflexivity.
Qed.
Lemma narr_then_repair (r : offer A) (r' : offer B) :
  narr p i r -> narr (k (f_val r)) (f_pos r) r' -> narr g i (f_then_repair merge r r').
Proof.
  intros (es & K1 & K2 & K3 & K4 & K5 & K6 & K7) (es' & L1 & L2 & L3 & L4 & L5 & L6 & L7).
  exists (es ++ es'). cbn [f_pos f_then_repair f_val f_ops f_exp f_con].
  rewrite edits_in_app, edits_out_app, K1, L1.
  split; [apply slice_app; lia|]. split; [lia|]. split; [apply Hk; auto|].
  split; [apply from_app; [apply (from_in A C p g); auto|apply (from_in B C (k (f_val r)) g); auto; apply Ok_]|]. split; [|split].
  - apply told_app; [apply told_in; auto|]. rewrite K1, slice_len by lia.
    replace (i + (f_pos r - i)) with (f_pos r) by lia. cbn [app].
    pose proof (told_map (may (k (f_val r))) (may g) (edits_out es) (op_after (f_con r) (f_exp r))) as TM.
    specialize (TM ltac:(intros o; unfold op_after; destruct (op_con o); reflexivity) es' (f_pos r) []).
    rewrite app_nil_r in TM. apply TM; auto.
    intros o j w' _ (R1 & R2 & R3). unfold op_after. destruct (op_con o) eqn:Eo.
    + split; [auto|]. split; [|congruence]. intros l Hl. eapply may_then; eauto.
    + specialize (R3 eq_refl). subst w'. rewrite app_nil_r. split; [auto|]. cbn [op_exp op_con]. split.
      * intros l Hl. apply in_app_or in Hl as [Hl|Hl]; [apply (may_in A C p g); auto|].
        rewrite <- (app_nil_r (edits_out es)). eapply may_then; eauto.
      * exact K7.
  - intros l Hl. destruct (f_con r') eqn:Er; [eapply may_then; eauto|]. apply in_app_or in Hl as [Hl|Hl].
    + rewrite (L7 eq_refl), app_nil_r. apply (may_in A C p g); auto.
    + eapply may_then; eauto.
  - intros H. apply orb_false_elim in H as [H1 H2]. rewrite (K7 H1), (L7 H2). reflexivity.
Qed.
End Then.
Lemma closed_then_succ {A B C} ins (merge : A -> B -> C) r w j Y : closed r -> closed (f_then_succ ins merge r w j Y).
Proof. intros [H1 H2]. split; cbn; auto. rewrite H1. reflexivity. Qed.
Lemma closed_then_repair {A B C} (merge : A -> B -> C) r r' : closed r -> closed (f_then_repair merge r r').
Proof.
  intros [H1 H2]. split; cbn; [rewrite H1; reflexivity|]. intros o Ho. apply in_app_or in Ho as [Ho|Ho]; auto.
  apply in_map_iff in Ho as (o' & <- & Ho). unfold op_after. destruct (op_con o') eqn:Eo; auto.
Qed.

(** *** primitive repairs *)
Lemma narr_skip A (g : gram A) ins v i j k X b :
  i < j -> j <= k -> k <= len -> lang E A g (sl j k) v -> (b = false -> j = k) ->
  (forall l, In l X -> may g [] l) ->
  narr g i (f_skip ins v k (at_ i) (j - i) X b).
Proof.
  intros H1 H2 H3 H4 H5 H6. destruct (edits_keep (slice s j k) j) as (I1 & I2 & I3).
  exists (ESkip (slice s i j) :: map EKeep (slice s j k)).
  assert (O : edits_out (ESkip (slice s i j) :: map EKeep (slice s j k)) = sl j k)
    by (unfold edits_out in *; cbn; exact I2).
  rewrite O. cbn [f_skip f_pos f_val f_ops f_exp f_con].
  split; [unfold edits_in in *; cbn; rewrite I1; apply slice_app; lia|]. split; [lia|]. split; [auto|].
  split; [intros l w [Hi|Hi]; [discriminate|eapply from_keep; eauto]|]. split; [|split].
  - cbn [told]. eexists _, []. split; [reflexivity|]. cbn [op_op]. rewrite slice_len by lia.
    split; [reflexivity|]. split; [|apply told_keep]. split; [reflexivity|]. split; auto.
  - intros l [].
  - intros Hb. rewrite (H5 Hb), slice_nil. reflexivity.
Qed.
Lemma narr_insert A (g : gram A) rank lf x i lb w X :
  i <= len -> lang E A g w x -> inserts E g lb w ->
  (forall l, In l X -> may g [] l) ->
  narr g i (f_insert rank lf x i (at_ i) lb X).
Proof.
  intros H1 H2 H3 H4. exists [EIns lb w].
  unfold edits_in, edits_out. cbn [flat_map edit_in edit_out app f_insert f_pos f_val f_ops f_exp f_con].
  rewrite app_nil_r. split; [rewrite slice_nil; reflexivity|]. split; [lia|]. split; [auto|].
  split; [|split; [|split; [intros l []|discriminate]]].
  - intros l w' [Hi|[]]. injection Hi as <- <-. exact H3.
  - cbn [told]. eexists _, []. split; [reflexivity|]. split; [reflexivity|]. split; [|reflexivity].
    split; [reflexivity|]. split; auto.
Qed.

(** *** outcomes *)
Definition located {A} (g : gram A) (i : nat) (b : bool) (l : loc) (X : list string) : Prop :=
  exists p, l = at_ p /\ i <= p <= len /\ (b = false -> p = i) /\ forall x, In x X -> may g (sl i p) x.
Definition apt {A} (rem : option Z) (g : gram A) (i : nat) (o : rres A) : Prop :=
  match o with
  | RSucc v j X => i <= j <= len /\ lang E A g (sl i j) v /\ forall l, In l X -> may g (sl i j) l
  | RFail b l X => located g i b l X
  | ROffer _ b l X rs => located g i b l X /\ (rem = None -> b = true) /\
      forall r, In r rs -> narr g i r /\ (rem = None -> closed r)
  | RExn _ => True
  end.
Lemma located_here A (g : gram A) i X : i <= len -> (forall x, In x X -> may g [] x) -> located g i false (at_ i) X.
Proof. intros Hi H. exists i. rewrite slice_nil. split; [auto|]. split; [lia|]. split; auto. Qed.
Lemma located_false A (g : gram A) i l X : located g i false l X -> l = at_ i /\ forall x, In x X -> may g [] x.
Proof.
  intros (p & H1 & H2 & H3 & H4). specialize (H3 eq_refl). subst p. rewrite slice_nil in H4. auto.
Qed.
Lemma located_in A B (p : gram A) (g : gram B) i b l X :
  (forall C (q : gram C), occurs E q A p -> occurs E q B g) ->
  (forall u v, lang E A p u v -> exists w' v', lang E B g (u ++ w') v') ->
  located p i b l X -> located g i b l X.
Proof.
  intros Ho Hm (q & H1 & H2 & H3 & H4). exists q. split; [auto|]. split; [auto|]. split; [auto|].
  intros x Hx. apply (may_in A B p g); auto.
Qed.
Lemma rmany_commits C (G : gram C) m i ins rem o : RecSpec.rsem E s at_ C G m i ins rem o ->
  match G, o with GMany _, RFail b _ _ => b = true | _, _ => True end.
Proof. induction 1; auto. destruct o; cbn [on_rvalue]; auto. Qed.
Definition PP A (g : gram A) (m : Z) (i : nat) (ins : Z) (rem : option Z) (o : rres A) : Prop :=
  wf g -> i <= len -> compl g -> afree g -> apt rem g i o.
Definition PC A B C (k : A -> gram B) (merge : A -> B -> C) (m ins : Z) (rs : list (offer A))
    (x : list (offer C) + exn) : Prop :=
  forall (p : gram A) (g : gram C) i rs',
  (forall D (r : gram D), occurs E r A p -> occurs E r C g) ->
  (forall v D (r : gram D), occurs E r B (k v) -> occurs E r C g) ->
  (forall u v, lang E A p u v -> exists w' v', lang E C g (u ++ w') v') ->
  (forall w v w' v', lang E A p w v -> lang E B (k v) w' v' -> lang E C g (w ++ w') (merge v v')) ->
  (forall v, wf (k v) /\ compl (k v) /\ afree (k v)) ->
  x = inl rs' -> (forall r, In r rs -> narr p i r) ->
  (forall r, In r rs' -> narr g i r) /\ ((forall r, In r rs -> closed r) -> forall r, In r rs' -> closed r).

(** the same outcome, seen from a larger parser *)
Lemma apt_wrap A B (p : gram A) (g : gram B) (h : A -> B) rem i o :
  (forall C (q : gram C), occurs E q A p -> occurs E q B g) ->
  (forall u v, lang E A p u v -> lang E B g u (h v)) ->
  apt rem p i o -> apt rem g i (on_rvalue h o).
Proof.
  intros Ho Hv K.
  assert (Hm : forall u v, lang E A p u v -> exists w' v', lang E B g (u ++ w') v')
    by (intros u v Hu; exists [], (h v); rewrite app_nil_r; auto).
  destruct o as [v j X|b l X|n b l X rs|e]; cbn [on_rvalue apt] in *.
  - destruct K as (K1 & K2 & K3). split; [auto|]. split; [auto|]. intros l Hl. apply (may_in A B p g); auto.
  - apply (located_in A B p g); auto.
  - destruct K as (K1 & K0 & K2). split; [|split; [auto|]].
    + apply (located_in A B p g); auto.
    + intros r' Hr. apply in_map_iff in Hr as (r & <- & Hr). destruct (K2 _ Hr) as [K3 K4]. split; [|exact K4].
      apply (narr_wrap A B p g i r _ (fun o => o)); auto; cbn; rewrite ?map_id; auto.
  - exact I.
Qed.
Lemma on_rvalue_id {A} (o : rres A) : on_rvalue (fun x => x) o = o.
Proof.
  destruct o as [| |n b l X rs|]; try reflexivity. cbn. f_equal. rewrite <- (map_id rs) at 2.
  apply map_ext. intros []; reflexivity.
Qed.
Lemma apt_wrap_same A (p g : gram A) rem i o :
  (forall C (q : gram C), occurs E q A p -> occurs E q A g) ->
  (forall u v, lang E A p u v -> lang E A g u v) ->
  apt rem p i o -> apt rem g i o.
Proof. intros H1 H2 H. rewrite <- (on_rvalue_id o). apply (apt_wrap A A p g); auto. Qed.
Lemma apt_rem A (g : gram A) rem i o : apt None g i o -> apt rem g i o.
Proof.
  destruct o as [v j X|b l X|n b l X rs|e]; cbn; auto.
  intros (K1 & K0 & K2). split; auto. split; auto. intros r Hr. destruct (K2 r Hr) as [K3 K4]. split; auto.
Qed.

(** sequencing after a success *)
Lemma apt_seq A B C (p : gram A) (q : gram B) (g : gram C) (h : B -> C) rem i j v X o :
  (forall D (r : gram D), occurs E r A p -> occurs E r C g) ->
  (forall D (r : gram D), occurs E r B q -> occurs E r C g) ->
  (forall u v', lang E A p u v' -> exists w' v'', lang E C g (u ++ w') v'') ->
  (forall w w' v', lang E A p w v -> lang E B q w' v' -> lang E C g (w ++ w') (h v')) ->
  i <= j <= len -> lang E A p (sl i j) v -> (forall l, In l X -> may p (sl i j) l) ->
  (forall w k Y, o = RSucc w k Y -> j <= k) ->
  apt (if Nat.ltb i j then Some 0%Z else rem) q j o ->
  apt rem g i (on_rvalue h (r_after i j X o)).
Proof.
  intros Op Oq Hp Hq Hj Hv HX Hk K.
  assert (Hq' : forall w w' v', lang E A p w v -> lang E B q w' v' -> exists v'', lang E C g (w ++ w') v'')
    by (intros; eexists; eapply Hq; eauto).
  assert (HX' : forall l, In l X -> may g (sl i j) l)
    by (intros l Hl; apply (may_in A C p g); auto).
  assert (HQ : forall w l, may q w l -> may g (sl i j ++ w) l)
    by (intros w l; apply (may_after A B C p q g i j v l w); auto).
  assert (Z0 : Nat.ltb i j = false -> sl i j = [])
    by (intros H; apply Nat.ltb_ge in H; assert (i = j) as <- by lia; rewrite slice_nil; reflexivity).
  assert (LC : forall b l Y, located q j b l Y -> located g i (b || Nat.ltb i j) l (if b then Y else X ++ Y)).
  { intros b l Y (r & R1 & R2 & R3 & R4). exists r. split; [auto|]. split; [lia|].
    rewrite <- (slice_app s i j r), map_app by lia. split.
    - intros H. apply orb_false_elim in H as [-> H]. apply Nat.ltb_ge in H. rewrite R3; auto. lia.
    - intros x Hx. destruct b; [apply HQ; auto|]. specialize (R3 eq_refl). subst r.
      apply in_app_or in Hx as [Hx|Hx]; [|apply HQ; auto]. rewrite slice_nil, app_nil_r. auto. }
  destruct o as [w k Y|b l Y|n b l Y rs|e]; cbn [r_after on_rvalue apt] in *.
  - destruct K as (K1 & K2 & K3). split; [lia|].
    rewrite <- (slice_app s i j k), map_app by lia. split; [apply Hq; auto|].
    intros l Hl. destruct (Nat.ltb_spec j k); [apply HQ; auto|].
    apply in_app_or in Hl as [Hl|Hl]; [|apply HQ; auto].
    assert (k = j) as -> by lia. rewrite slice_nil, app_nil_r. auto.
  - apply LC. exact K.
  - destruct K as (K1 & K0 & K2). split; [apply LC; exact K1|]. split.
    + intros ->. destruct (Nat.ltb i j); [apply orb_true_r|]. rewrite K0; auto.
    + intros r' Hr. rewrite map_map in Hr. apply in_map_iff in Hr as (r & <- & Hr).
      destruct (K2 _ Hr) as [K3 K4]. split.
      * apply (narr_after A B C p q g h i j v X r); auto; lia.
      * intros ->. apply closed_after. destruct (Nat.ltb i j); auto.
  - exact I.
Qed.

(** choice *)
Lemma may_alt_l A (p q : gram A) w l : may p w l -> may (GAlt p q) w l.
Proof.
  apply may_in; [intros; apply oc_alt_l; auto|]. intros u v Hu. exists [], v. rewrite app_nil_r. apply la_alt_l; auto.
Qed.
Lemma may_alt_r A (p q : gram A) w l : may q w l -> may (GAlt p q) w l.
Proof.
  apply may_in; [intros; apply oc_alt_r; auto|]. intros u v Hu. exists [], v. rewrite app_nil_r. apply la_alt_r; auto.
Qed.
Lemma narr_alt_l A (p q : gram A) i r : narr p i r -> narr (GAlt p q) i r.
Proof.
  apply (narr_wrap A A p (GAlt p q) i r r (fun o => o)); auto.
  - intros; apply oc_alt_l; auto.
  - intros u v Hu. exists [], v. rewrite app_nil_r. apply la_alt_l; auto.
  - intros. apply la_alt_l; auto.
  - rewrite map_id. reflexivity.
Qed.
Lemma narr_alt_r A (p q : gram A) i r : narr q i r -> narr (GAlt p q) i r.
Proof.
  apply (narr_wrap A A q (GAlt p q) i r r (fun o => o)); auto.
  - intros; apply oc_alt_r; auto.
  - intros u v Hu. exists [], v. rewrite app_nil_r. apply la_alt_r; auto.
  - intros. apply la_alt_r; auto.
  - rewrite map_id. reflexivity.
Qed.
Lemma narr_rename A (g : gram A) i r X : (forall l, In l X -> may g [] l) -> narr g i r -> narr g i (f_rename X r).
Proof.
  intros HX. apply (narr_wrap A A g g i r (f_rename X r) (op_rename X)); auto.
  - intros u v Hu. exists [], v. rewrite app_nil_r. auto.
  - intros o. unfold op_rename. destruct (op_con o); auto.
  - cbn. destruct (f_con r); auto.
Qed.
Lemma closed_rename A X (r : offer A) : closed r -> closed (f_rename X r).
Proof.
  intros [H1 H2]. split; cbn; auto. intros o Ho. apply in_map_iff in Ho as (o' & <- & Ho).
  unfold op_rename. rewrite (H2 _ Ho). auto.
Qed.

Ltac occ := intros; solve [econstructor; eassumption | apply oc_alt_r; assumption | apply oc_seq_r; assumption
  | eapply oc_bind_r; eassumption].
Ltac here := let l := fresh in intros l [<-|[]]; apply may_here; reflexivity.

Lemma slice_tok i t : nth_error s i = Some t -> sl i (i + 1) = [inl t].
Proof. intros H. rewrite (slice_one s i t H). reflexivity. Qed.
Lemma tok_len i t : nth_error s i = Some t -> i + 1 <= len.
Proof. intros H. assert (i < len) by (apply nth_error_Some; congruence). lia. Qed.

Theorem rsem_apt A (g : gram A) m i ins rem o :
  RecSpec.rsem E s at_ A g m i ins rem o -> PP A g m i ins rem o.
Proof.
  intros HH. induction HH using rsem_mut with (P0 := PC).
  all: match goal with
    | |- PP _ _ _ _ _ _ _ => intros Hw Hi Hc Ha; unfold PP in *; unfold wf in Hw; cbn [gall wf_node] in Hw
    | |- PC _ _ _ _ _ _ _ _ _ => unfold PC in *
    end.
  - (* pure *) cbn. rewrite slice_nil. split; [lia|]. split; [constructor|intros ? []].
  - cbn. rewrite slice_nil. split; [lia|]. split; [constructor; auto|intros ? []].
  - exact I.
  - (* unexpected *) apply located_here; auto. here.
  - (* eof *) cbn. rewrite slice_nil. split; [lia|]. split; [constructor|intros ? []].
  - apply located_here; auto. here.
  - cbn [apt]. split; [apply located_here; auto; here|]. split; [discriminate|]. intros r [<-|[]]. split; [|discriminate].
    replace (len - i) with (len - i) by lia. apply narr_skip; auto; try lia; [|here].
    rewrite slice_nil. constructor.
  - (* satisfy *) destruct H as [H1 H2]. cbn. rewrite (slice_tok _ _ H1). pose proof (tok_len _ _ H1).
    split; [lia|]. split; [constructor; auto|intros ? []].
  - exact I.
  - apply located_here; auto. intros ? [].
  - cbn [apt]. split; [apply located_here; auto; intros ? []|]. split; [discriminate|]. intros r [<-|[]]. split; [|discriminate].
    destruct H0 as (H1 & (H2 & H3) & _). pose proof (tok_len _ _ H2).
    apply narr_skip; try lia; try discriminate; [|intros ? []]. rewrite (slice_tok _ _ H2). constructor; auto.
  - apply located_here; auto. intros ? [].
  - exact I.
  - (* sym *) destruct H as [H1 H2]. cbn. rewrite (slice_tok _ _ H1). pose proof (tok_len _ _ H1).
    split; [lia|]. split; [constructor; auto|intros ? []].
  - apply located_here; auto. here.
  - cbn [apt]. split; [apply located_here; auto; here|]. split; [discriminate|]. intros r Hr. split; [|discriminate]. apply in_app_or in Hr as [Hr|[<-|[]]].
    + unfold insertions in Hr. destruct (Z.eqb left 0); [destruct Hr|]. destruct Hr as [<-|[]].
      eapply narr_insert; auto; [apply la_sym; exact (proj1 Hw)| |here].
      exists T, (GSym teq x l). split; [constructor|]. cbn. auto.
    + destruct H0 as (H1 & (H2 & H3) & _). pose proof (tok_len _ _ H2).
      apply narr_skip; try lia; try discriminate; [|here]. rewrite (slice_tok _ _ H2). constructor; auto.
  - cbn [apt]. split; [apply located_here; auto; here|]. split; [discriminate|]. intros r Hr. split; [|discriminate].
    unfold insertions in Hr. destruct (Z.eqb left 0); [destruct Hr|]. destruct Hr as [<-|[]].
    eapply narr_insert; auto; [apply la_sym; exact (proj1 Hw)| |here].
    exists T, (GSym teq x l). split; [constructor|]. cbn. auto.
  - (* literal *) unfold lit_hit in H. change (stands_at teq x s i) with (starts_with teq x s i) in H.
    pose proof (starts_len s teq x i Hi H). cbn. split; [lia|]. split; [|intros ? []]. constructor. apply starts_slice; auto.
  - apply located_here; auto. here.
  - cbn [apt]. split; [apply located_here; auto; here|]. split; [discriminate|]. intros r Hr. split; [|discriminate]. apply in_app_or in Hr as [Hr|[<-|[]]].
    + unfold insertions in Hr. destruct (Z.eqb left 0); [destruct Hr|]. destruct Hr as [<-|[]].
      eapply narr_insert; auto; [apply la_lit; apply forall2_refl_lit; apply (proj1 Hw)| |here].
      exists _, (GLiteral teq x l). split; [constructor|]. cbn. auto.
    + destruct H0 as (H1 & H2 & _). unfold lit_hit in H2. change (stands_at teq x s j) with (starts_with teq x s j) in H2.
      pose proof (starts_len s teq x j ltac:(lia) H2).
      apply narr_skip; try lia; try discriminate; [|here]. constructor. apply starts_slice; auto.
  - cbn [apt]. split; [apply located_here; auto; here|]. split; [discriminate|]. intros r Hr. split; [|discriminate].
    unfold insertions in Hr. destruct (Z.eqb left 0); [destruct Hr|]. destruct Hr as [<-|[]].
    eapply narr_insert; auto; [apply la_lit; apply forall2_refl_lit; apply (proj1 Hw)| |here].
    exists _, (GLiteral teq x l). split; [constructor|]. cbn. auto.
  - (* regexp *) unfold re_hit in H. cbn in H. pose proof (proj1 Hw _ _ _ _ Hi H). cbn. split; [lia|]. split; [|intros ? []].
    apply la_re; auto.
  - apply located_here; auto. intros ? [].
  - cbn [apt]. split; [apply located_here; auto; intros ? []|]. split; [discriminate|]. intros r [<-|[]]. split; [|discriminate].
    destruct H0 as (H1 & H2 & _). unfold re_hit in H2. cbn in H2. pose proof (proj1 Hw _ _ _ _ (ltac:(lia) : j <= len) H2).
    apply narr_skip; try lia; try discriminate; [|intros ? []]. apply la_re; auto.
  - apply located_here; auto. intros ? [].
  - (* fmap *) destruct Hw as [_ Hw]. destruct (IHHH Hw Hi (ev_fmap _ _ _ _ _ _ Hc) (ev_fmap _ _ _ _ _ _ Ha)) as (K1 & K2 & K3).
    cbn. split; [auto|]. split; [econstructor; eauto|]. intros l Hl. apply (may_in A B p (GFmap p f)); auto; [occ|].
    intros u u' Hu. destruct (ev_here _ _ _ _ Hc _ _ Hu) as [v' Hv']. exists [], v'. rewrite app_nil_r. econstructor; eauto.
  - exact I.
  - destruct Hw as [_ Hw]. pose proof (IHHH Hw Hi (ev_fmap _ _ _ _ _ _ Hc) (ev_fmap _ _ _ _ _ _ Ha)) as K.
    apply (located_in A B p (GFmap p f)); [occ| |exact K].
    intros u u' Hu. destruct (ev_here _ _ _ _ Hc _ _ Hu) as [v' Hv']. exists [], v'. rewrite app_nil_r. econstructor; eauto.
  - destruct Hw as [_ Hw]. destruct (IHHH Hw Hi (ev_fmap _ _ _ _ _ _ Hc) (ev_fmap _ _ _ _ _ _ Ha)) as (K1 & K0 & K2).
    assert (Hm : forall u u', lang E A p u u' -> exists w' v', lang E B (GFmap p f) (u ++ w') v').
    { intros u u' Hu. destruct (ev_here _ _ _ _ Hc _ _ Hu) as [v' Hv']. exists [], v'. rewrite app_nil_r. econstructor; eauto. }
    cbn [apt]. split; [apply (located_in A B p (GFmap p f)); [occ|auto|exact K1]|]. split; [exact K0|].
    clear K1 HH IHHH. revert rs' H. induction rs as [|r rs IHrs]; intros rs' H; cbn [f_map] in H.
    { injection H as <-. intros r []. }
    destruct (f (f_val r)) as [v| |] eqn:Ef; try discriminate.
    destruct (f_map f rs) as [rs1| |] eqn:Er; try discriminate. injection H as <-.
    intros r' [<-|Hr]; [|apply (IHrs (fun r0 H0 => K2 r0 (or_intror H0)) _ eq_refl); auto].
    destruct (K2 r (or_introl eq_refl)) as [K3 K4]. split; [|exact K4].
    apply (narr_wrap A B p (GFmap p f) i r (f_with r v) (fun o => o)); auto; cbn; rewrite ?map_id; auto; [occ|].
    intros u Hu. econstructor; eauto.
  - exact I.
  - exact I.
  - (* alt *) destruct Hw as [_ [Hw1 Hw2]].
    apply (apt_wrap_same A p); [occ|intros; apply la_alt_l; auto|]. apply apt_rem.
    apply IHHH; auto; [apply (ev_alt_l _ _ _ _ _ Hc)|apply (ev_alt_l _ _ _ _ _ Ha)].
  - destruct Hw as [_ [Hw1 Hw2]].
    pose proof (IHHH1 Hw1 Hi (ev_alt_l _ _ _ _ _ Hc) (ev_alt_l _ _ _ _ _ Ha)) as [E1 K1]%located_false.
    pose proof (IHHH2 Hw2 Hi (ev_alt_r _ _ _ _ _ Hc) (ev_alt_r _ _ _ _ _ Ha)) as K2.
    assert (K3 : apt rem (GAlt p q) i o).
    { apply (apt_wrap_same A q); [occ|intros; apply la_alt_r; auto|]. apply apt_rem. exact K2. }
    destruct o as [v k Y| | |]; cbn [r_else]; auto.
    cbn [apt] in K3 |- *. destruct K3 as (L1 & L2 & L3). split; [auto|]. split; [auto|]. intros l' Hl.
    destruct (Nat.ltb_spec i k); auto. apply in_app_or in Hl as [Hl|Hl]; auto.
    assert (k = i) as -> by lia. rewrite slice_nil. apply may_alt_l; auto.
  - destruct Hw as [_ [Hw1 Hw2]].
    pose proof (IHHH1 Hw1 Hi (ev_alt_l _ _ _ _ _ Hc) (ev_alt_l _ _ _ _ _ Ha)) as [E1 K1]%located_false.
    pose proof (IHHH2 Hw2 Hi (ev_alt_r _ _ _ _ _ Hc) (ev_alt_r _ _ _ _ _ Ha)) as [E2 K2]%located_false.
    subst l. apply located_here; auto. intros l1 Hl. apply in_app_or in Hl as [Hl|Hl]; [apply may_alt_l|apply may_alt_r]; auto.
  - (* alt, recovering *) destruct Hw as [_ [Hw1 Hw2]].
    pose proof (IHHH1 Hw1 Hi (ev_alt_l _ _ _ _ _ Hc) (ev_alt_l _ _ _ _ _ Ha)) as [E1 K1]%located_false.
    pose proof (IHHH2 Hw2 Hi (ev_alt_r _ _ _ _ _ Hc) (ev_alt_r _ _ _ _ _ Ha)) as [E2 K2]%located_false.
    pose proof (IHHH3 Hw1 Hi (ev_alt_l _ _ _ _ _ Hc) (ev_alt_l _ _ _ _ _ Ha)) as K3.
    pose proof (IHHH4 Hw2 Hi (ev_alt_r _ _ _ _ _ Hc) (ev_alt_r _ _ _ _ _ Ha)) as K4.
    assert (KX : forall l1, In l1 (X ++ Y) -> may (GAlt p q) [] l1).
    { intros l1 Hl. apply in_app_or in Hl as [Hl|Hl]; [apply may_alt_l|apply may_alt_r]; auto. }
    assert (R : forall n b l1 Z rs, located (GAlt p q) i b l1 Z -> (forall r, In r rs -> narr (GAlt p q) i r) ->
      apt (Some left) (GAlt p q) i (relabelled (X ++ Y) (ROffer n b l1 Z rs))).
    { intros n b l1 Z rs HZ Hrs. cbn [relabelled apt]. split.
      - destruct b; auto. apply located_false in HZ as [-> _]. apply located_here; auto.
      - split; [discriminate|]. intros r' Hr. apply in_map_iff in Hr as (r & <- & Hr).
        split; [|discriminate]. apply narr_rename; auto. }
    assert (F : apt (Some left) (GAlt p q) i (RFail false l (X ++ Y))) by (subst l; apply located_here; auto).
    assert (L1 : forall n b l1 Z rs, o1 = ROffer n b l1 Z rs -> located (GAlt p q) i b l1 Z).
    { intros n b l1 Z rs ->. destruct K3 as (K3 & _). revert K3. apply located_in; [occ|].
      intros u v Hu. exists [], v. rewrite app_nil_r. apply la_alt_l; auto. }
    assert (L2 : forall n b l1 Z rs, o2 = ROffer n b l1 Z rs -> located (GAlt p q) i b l1 Z).
    { intros n b l1 Z rs ->. destruct K4 as (K4 & _). revert K4. apply located_in; [occ|].
      intros u v Hu. exists [], v. rewrite app_nil_r. apply la_alt_r; auto. }
    assert (N1 : forall n b l1 Z rs, o1 = ROffer n b l1 Z rs -> forall r, In r rs -> narr (GAlt p q) i r).
    { intros n b l1 Z rs -> r Hr. apply narr_alt_l. apply K3; auto. }
    assert (N2 : forall n b l1 Z rs, o2 = ROffer n b l1 Z rs -> forall r, In r rs -> narr (GAlt p q) i r).
    { intros n b l1 Z rs -> r Hr. apply narr_alt_r. apply K4; auto. }
    unfold r_choice. destruct o1 as [v1 j1 X1|b1 l1 X1|n1 b1 l1 X1 rs1|e1]; [| | |exact I];
      destruct o2 as [v2 j2 X2|b2 l2 X2|n2 b2 l2 X2 rs2|e2]; try exact I; auto;
      try (apply R; [eapply L1; reflexivity|eapply N1; reflexivity]);
      try (apply R; [eapply L2; reflexivity|eapply N2; reflexivity]).
    specialize (L1 _ _ _ _ _ eq_refl). specialize (L2 _ _ _ _ _ eq_refl).
    apply R.
    + destruct b1; cbn [orb]; [exact L1|]. destruct b2; [exact L2|].
      apply located_false in L1 as [-> L1], L2 as [_ L2]. apply located_here; auto.
      intros x Hx. apply in_app_or in Hx as [Hx|Hx]; auto.
    + intros r Hr. apply in_app_or in Hr as [Hr|Hr]; [eapply N1; eauto|]. apply filter_In in Hr as [Hr _]. eapply N2; eauto.
  - exact I.
  - (* bind *) destruct Hw as [_ [Hw1 Hw2]].
    pose proof (IHHH1 Hw1 Hi (ev_bind_l _ _ _ _ _ _ Hc) (ev_bind_l _ _ _ _ _ _ Ha)) as (K1 & K2 & K3).
    pose proof (IHHH2 (Hw2 v) (proj2 K1) (ev_bind_r _ _ _ _ _ _ v Hc) (ev_bind_r _ _ _ _ _ _ v Ha)) as K4.
    rewrite <- (on_rvalue_id (r_after i j X o)). eapply (apt_seq A B B p (f v)); eauto; try occ.
    + intros u v' Hu. destruct (ev_here _ _ _ _ Hc _ _ Hu) as (w' & v'' & Hv). exists w', v''. eapply la_bind; eauto.
    + intros w k Y ->. apply K4.
    + destruct (Nat.ltb i j); [|exact K4]. destruct o; cbn [apt] in *; auto. split; [apply K4|]. split; [discriminate|].
      intros r Hr. split; [apply K4; auto|discriminate].
  - destruct Hw as [_ [Hw1 Hw2]]. pose proof (IHHH Hw1 Hi (ev_bind_l _ _ _ _ _ _ Hc) (ev_bind_l _ _ _ _ _ _ Ha)) as K.
    apply (located_in A B p (GBind p f)); [occ| |exact K].
    intros u v' Hu. destruct (ev_here _ _ _ _ Hc _ _ Hu) as (w' & v'' & Hv). exists w', v''. eapply la_bind; eauto.
  - destruct Hw as [_ [Hw1 Hw2]]. pose proof (IHHH Hw1 Hi (ev_bind_l _ _ _ _ _ _ Hc) (ev_bind_l _ _ _ _ _ _ Ha)) as (K1 & K0 & K2).
    assert (Hm : forall u v', lang E A p u v' -> exists w' v'', lang E B (GBind p f) (u ++ w') v'').
    { intros u v' Hu. destruct (ev_here _ _ _ _ Hc _ _ Hu) as (w' & v'' & Hv). exists w', v''. eapply la_bind; eauto. }
    destruct (IHHH0 p (GBind p f) i rs') as [K3 K4]; auto; try occ.
    + intros v. split; [apply Hw2|]. split; [apply (ev_bind_r _ _ _ _ _ _ v Hc)|apply (ev_bind_r _ _ _ _ _ _ v Ha)].
    + intros r Hr. apply K2; auto.
    + cbn [apt]. split; [apply (located_in A B p (GBind p f)); [occ|auto|exact K1]|]. split; [exact K0|].
      intros r Hr. split; [auto|]. intros Hrem. apply K4; auto. intros r0 Hr0. apply K2; auto.
  - exact I.
  - exact I.
  - (* seq *) destruct Hw as [_ [Hw1 Hw2]].
    pose proof (IHHH1 Hw1 Hi (ev_seq_l _ _ _ _ _ _ _ _ Hc) (ev_seq_l _ _ _ _ _ _ _ _ Ha)) as (K1 & K2 & K3).
    pose proof (IHHH2 Hw2 (proj2 K1) (ev_seq_r _ _ _ _ _ _ _ _ Hc) (ev_seq_r _ _ _ _ _ _ _ _ Ha)) as K4.
    eapply (apt_seq A B C p q); eauto; try occ.
    + intros u v' Hu. destruct (ev_here _ _ _ _ Hc) as (w' & v'' & Hv). exists w', (merge v' v''). eapply la_seq; eauto.
    + intros w k Y ->. apply K4.
    + destruct (Nat.ltb i j); [|exact K4]. destruct o; cbn [apt] in *; auto. split; [apply K4|]. split; [discriminate|].
      intros r Hr. split; [apply K4; auto|discriminate].
  - destruct Hw as [_ [Hw1 Hw2]]. pose proof (IHHH Hw1 Hi (ev_seq_l _ _ _ _ _ _ _ _ Hc) (ev_seq_l _ _ _ _ _ _ _ _ Ha)) as K.
    apply (located_in A C p (GSeq p q merge)); [occ| |exact K].
    intros u v' Hu. destruct (ev_here _ _ _ _ Hc) as (w' & v'' & Hv). exists w', (merge v' v''). eapply la_seq; eauto.
  - destruct Hw as [_ [Hw1 Hw2]]. pose proof (IHHH Hw1 Hi (ev_seq_l _ _ _ _ _ _ _ _ Hc) (ev_seq_l _ _ _ _ _ _ _ _ Ha)) as (K1 & K0 & K2).
    assert (Hm : forall u v', lang E A p u v' -> exists w' v'', lang E C (GSeq p q merge) (u ++ w') v'').
    { intros u v' Hu. destruct (ev_here _ _ _ _ Hc) as (w' & v'' & Hv). exists w', (merge v' v''). eapply la_seq; eauto. }
    destruct (IHHH0 p (GSeq p q merge) i rs') as [K3 K4]; auto; try occ.
    + intros v. split; [apply Hw2|]. split; [apply (ev_seq_r _ _ _ _ _ _ _ _ Hc)|apply (ev_seq_r _ _ _ _ _ _ _ _ Ha)].
    + intros r Hr. apply K2; auto.
    + cbn [apt]. split; [apply (located_in A C p (GSeq p q merge)); [occ|auto|exact K1]|]. split; [exact K0|].
      intros r Hr. split; [auto|]. intros Hrem. apply K4; auto. intros r0 Hr0. apply K2; auto.
  - exact I.
  - exact I.
  - (* maybe *) destruct Hw as [_ Hw]. apply apt_rem. apply (apt_wrap A _ p (GMaybe p) Some); [occ|intros; constructor; auto|].
    apply IHHH; auto; [apply (ev_maybe _ _ _ _ Hc)|apply (ev_maybe _ _ _ _ Ha)].
  - destruct Hw as [_ Hw]. pose proof (IHHH Hw Hi (ev_maybe _ _ _ _ Hc) (ev_maybe _ _ _ _ Ha)) as [_ K]%located_false.
    cbn. rewrite slice_nil. split; [lia|]. split; [constructor|]. intros l' Hl. apply (may_in A _ p (GMaybe p)); [occ| |auto].
    intros u v Hu. exists [], (Some v). rewrite app_nil_r. constructor; auto.
  - (* many *) destruct Hw as [Hn Hw].
    pose proof (IHHH1 Hw Hi (ev_many _ _ _ _ Hc) (ev_many _ _ _ _ Ha)) as (K1 & K2 & K3).
    pose proof (IHHH2 (conj Hn Hw) (proj2 K1) Hc Ha) as K4.
    assert (HQ : forall w l, may (GMany p) w l -> may (GMany p) (sl i j ++ w) l).
    { intros w l. apply may_sub; auto. intros u vs Hu. exists [], (v :: vs). rewrite app_nil_r. constructor; auto. }
    assert (LQ : forall l Y, located (GMany p) j true l Y -> located (GMany p) i true l Y).
    { intros l Y (r & R1 & R2 & R3 & R4). exists r. split; [auto|]. split; [lia|]. split; [discriminate|].
      intros x Hx. rewrite <- (slice_app s i j r), map_app by lia. apply HQ; auto. }
    destruct o as [vs k Y|b l Y|n b l Y rs|e]; cbn [on_rvalue apt] in *; auto.
    + destruct K4 as (L1 & L2 & L3). split; [lia|]. rewrite <- (slice_app s i j k), map_app by lia.
      split; [constructor; auto|]. intros l Hl. apply HQ; auto.
    + pose proof (rmany_commits _ _ _ _ _ _ _ HH2) as ->. apply LQ. exact K4.
    + destruct K4 as (L1 & L0 & L2). rewrite (L0 eq_refl) in *. split; [apply LQ; exact L1|]. split; [auto|].
      intros r' Hr. apply in_map_iff in Hr as (r & <- & Hr).
    destruct (L2 r Hr) as [N1 N2]. specialize (N2 eq_refl). split; [|intros _; exact N2].
    rewrite <- (closed_same (Nat.ltb i j) X r N2).
    apply (narr_after A _ _ p (GMany p) (GMany p) (cons v) i j v X r); auto; try lia; try occ.
      * intros u v' Hu. exists [], [v']. apply la_many_cons; auto. constructor.
  - exact I.
  - destruct Hw as [_ Hw]. pose proof (IHHH Hw Hi (ev_many _ _ _ _ Hc) (ev_many _ _ _ _ Ha)) as [_ K]%located_false.
    cbn. rewrite slice_nil. split; [lia|]. split; [constructor|]. intros l' Hl. apply (may_in A _ p (GMany p)); [occ| |auto].
    intros u v Hu. exists [], [v]. apply la_many_cons; auto. constructor.
  - destruct Hw as [_ Hw]. pose proof (IHHH Hw Hi (ev_many _ _ _ _ Hc) (ev_many _ _ _ _ Ha)) as K.
    apply (located_in A _ p (GMany p)); [occ| |exact K].
    intros u v Hu. exists [], [v]. apply la_many_cons; auto. constructor.
  - destruct Hw as [Hn Hw]. pose proof (IHHH Hw Hi (ev_many _ _ _ _ Hc) (ev_many _ _ _ _ Ha)) as (K1 & K0 & K2).
    assert (Hm : forall u v', lang E A p u v' -> exists w' v'', lang E _ (GMany p) (u ++ w') v'').
    { intros u v' Hu. exists [], [v']. apply la_many_cons; auto. constructor. }
    destruct (IHHH0 p (GMany p) i rs') as [K3 K4]; auto; try occ.
    + intros _. split; [exact (conj Hn Hw)|]. split; auto.
    + intros r Hr. apply K2; auto.
    + cbn [apt]. split; [apply (located_in A _ p (GMany p)); [occ|auto|exact K1]|]. split; [intros _; exact (K0 eq_refl)|].
      intros r Hr. split; [auto|]. intros Hrem. apply K4; auto. intros r0 Hr0. apply K2; auto.
  - exact I.
  - exact I.
  - (* attempt *) apply ev_here in Ha. destruct Ha. exact I.
  - apply ev_here in Ha. destruct Ha. exact I.
  - (* label *) destruct Hw as [_ Hw]. pose proof (IHHH Hw Hi (ev_label _ _ _ _ _ Hc) (ev_label _ _ _ _ _ Ha)) as K.
    apply (apt_wrap_same A p (GLabel p x)) in K; [|occ|intros; constructor; auto].
    assert (HL : forall l', In l' [x] -> may (GLabel p x) [] l') by here.
    destruct o as [v k Y|b l Y|n b l Y rs|e]; cbn [r_label apt] in *; auto.
    + destruct K as (K1 & K2 & K3). split; [auto|]. split; [auto|]. intros l Hl.
      destruct (Nat.ltb_spec i k); auto. assert (k = i) as -> by lia. rewrite slice_nil. auto.
    + destruct b; auto. apply located_false in K as [-> _]. apply located_here; auto.
    + destruct K as (K1 & K0 & K2). split; [destruct b; auto; apply located_false in K1 as [-> _]; apply located_here; auto|].
      split; [auto|]. intros r' Hr. apply in_map_iff in Hr as (r & <- & Hr).
      destruct (K2 _ Hr). split; [apply narr_rename; auto|]. intros; apply closed_rename; auto.
  - (* recover *) destruct Hw as [_ Hw]. pose proof (IHHH Hw Hi (ev_recover _ _ _ _ Hc) (ev_recover _ _ _ _ Ha)) as K.
    apply (apt_wrap_same A p (GRecover p)) in K; [|occ|intros; constructor; auto].
    destruct o as [v k Y|b l Y|n b l Y rs|e]; cbn [r_ranked apt] in *; auto.
    destruct K as (K1 & K0 & K2). split; auto. split; auto. intros r' Hr. apply in_map_iff in Hr as (r & <- & Hr).
    exact (K2 _ Hr).
  - (* recover_with *) destruct Hw as [_ Hw]. apply (apt_wrap_same A p); [occ|intros; apply la_with; auto|].
    apply IHHH; auto; [apply (ev_with _ _ _ _ _ _ Hc)|apply (ev_with _ _ _ _ _ _ Ha)].
  - destruct Hw as [_ Hw]. apply (apt_wrap_same A p); [occ|intros; apply la_with; auto|].
    apply IHHH; auto; [apply (ev_with _ _ _ _ _ _ Hc)|apply (ev_with _ _ _ _ _ _ Ha)].
  - destruct Hw as [_ Hw]. pose proof (IHHH Hw Hi (ev_with _ _ _ _ _ _ Hc) (ev_with _ _ _ _ _ _ Ha)) as K.
    apply (apt_wrap_same A p (GRecoverWith p x lb)) in K; [|occ|intros; apply la_with; auto].
    apply located_false in K as [_ K].
    cbn [apt]. split; [apply located_here; auto; intros ? []|]. split; [discriminate|]. intros r [<-|[]]. split; [|discriminate].
    eapply narr_insert; auto; [apply la_with_ins|]. eexists _, _. split; [constructor|]. cbn. auto.
  - destruct Hw as [_ Hw]. pose proof (IHHH Hw Hi (ev_with _ _ _ _ _ _ Hc) (ev_with _ _ _ _ _ _ Ha)) as K.
    apply (apt_wrap_same A p (GRecoverWith p x lb)) in K; [|occ|intros; apply la_with; auto].
    destruct K as (K1 & K0 & K2). apply located_false in K1 as [_ K1]. cbn [apt]. split; [apply located_here; auto|]. split; [auto|].
    intros r [<-|Hr]; [|auto]. split; [|discriminate].
    eapply narr_insert; auto; [apply la_with_ins|]. eexists _, _. split; [constructor|]. cbn. auto.
  - (* recover_with_fn *) destruct Hw as [_ Hw]. apply (apt_wrap_same A p); [occ|intros; apply la_withfn; auto|].
    apply IHHH; auto; [apply (ev_withfn _ _ _ _ _ _ Hc)|apply (ev_withfn _ _ _ _ _ _ Ha)].
  - destruct Hw as [_ Hw]. apply (apt_wrap_same A p); [occ|intros; apply la_withfn; auto|].
    apply IHHH; auto; [apply (ev_withfn _ _ _ _ _ _ Hc)|apply (ev_withfn _ _ _ _ _ _ Ha)].
  - destruct Hw as [_ Hw]. pose proof (IHHH Hw Hi (ev_withfn _ _ _ _ _ _ Hc) (ev_withfn _ _ _ _ _ _ Ha)) as K.
    apply (apt_wrap_same A p (GRecoverWithFn p fn lab)) in K; [|occ|intros; apply la_withfn; auto].
    apply located_false in K as [_ K].
    cbn [apt]. split; [apply located_here; auto; intros ? []|]. split; [discriminate|]. intros r [<-|[]]. split; [|discriminate].
    eapply narr_insert; auto; [eapply la_withfn_ins; eauto|]. eexists _, _. split; [constructor|]. cbn. eauto 6.
  - destruct Hw as [_ Hw]. pose proof (IHHH Hw Hi (ev_withfn _ _ _ _ _ _ Hc) (ev_withfn _ _ _ _ _ _ Ha)) as K.
    apply (apt_wrap_same A p (GRecoverWithFn p fn lab)) in K; [|occ|intros; apply la_withfn; auto].
    destruct K as (K1 & K0 & K2). apply located_false in K1 as [_ K1]. cbn [apt]. split; [apply located_here; auto|]. split; [auto|].
    intros r [<-|Hr]; [|auto]. split; [|discriminate].
    eapply narr_insert; auto; [eapply la_withfn_ins; eauto|]. eexists _, _. split; [constructor|]. cbn. eauto 6.
  - exact I.
  - (* layout *) destruct Hw as [_ Hw]. apply (apt_wrap_same A p); [occ|intros; constructor; auto|].
    apply IHHH; auto; [apply (ev_block _ _ _ _ Hc)|apply (ev_block _ _ _ _ Ha)].
  - destruct Hw as [_ Hw]. apply (apt_wrap_same A p); [occ|intros; constructor; auto|].
    apply IHHH; auto; [apply (ev_aligned _ _ _ _ Hc)|apply (ev_aligned _ _ _ _ Ha)].
  - apply located_here; auto. here.
  - destruct Hw as [_ Hw]. apply (apt_wrap_same A p); [occ|intros; constructor; auto|].
    apply IHHH; auto; [apply (ev_indented _ _ _ _ _ Hc)|apply (ev_indented _ _ _ _ _ Ha)].
  - apply located_here; auto. here.
  - (* delay *) apply (apt_wrap_same (V d) (E d)); [occ|intros; constructor; auto|].
    apply IHHH; auto; [apply (ev_delay _ _ _ Hc)|apply (ev_delay _ _ _ Ha)].
  - exact I.
  - (* continuations *) intros p g i rs' O1 O2 H1 H2 H3 Hx Hn. injection Hx as <-. split; intros; contradiction.
  - intros p g i rs0 O1 O2 H1 H2 H3 Hx Hn. injection Hx as <-.
    destruct (Hn r (or_introl eq_refl)) as (es & N1 & N2 & N3). destruct (H3 (f_val r)) as (W1 & W2 & W3).
    pose proof (IHHH W1 (proj2 N2) W2 W3) as (K1 & K2 & K3).
    destruct (IHHH0 p g i rs' O1 O2 H1 H2 H3 eq_refl (fun r0 h => Hn r0 (or_intror h))) as [L1 L2]. split.
    + intros r0 [<-|Hr]; auto. eapply (narr_then_succ p k g merge); eauto; try lia. apply Hn. left. auto.
    + intros Hcl r0 [<-|Hr]; [apply closed_then_succ; apply Hcl; left; auto|]. apply L2; auto. intros; apply Hcl; right; auto.
  - intros p g i rs0 O1 O2 H1 H2 H3 Hx Hn. injection Hx as <-.
    destruct (Hn r (or_introl eq_refl)) as (es & N1 & N2 & N3). destruct (H3 (f_val r)) as (W1 & W2 & W3).
    pose proof (IHHH W1 (proj2 N2) W2 W3) as (K1 & K0 & K2).
    destruct (IHHH0 p g i rs' O1 O2 H1 H2 H3 eq_refl (fun r0 h => Hn r0 (or_intror h))) as [L1 L2]. split.
    + intros r0 Hr. apply in_app_or in Hr as [Hr|Hr]; auto. apply in_map_iff in Hr as (r1 & <- & Hr).
      eapply (narr_then_repair p k g merge); eauto; [apply Hn; left; auto|]. apply K2; auto.
    + intros Hcl r0 Hr. apply in_app_or in Hr as [Hr|Hr]; [|apply L2; auto; intros; apply Hcl; right; auto].
      apply in_map_iff in Hr as (r1 & <- & Hr). apply closed_then_repair. apply Hcl. left. auto.
  - intros p g i rs0 O1 O2 H1 H2 H3 Hx Hn. injection Hx as <-.
    destruct (IHHH0 p g i rs' O1 O2 H1 H2 H3 eq_refl (fun r0 h => Hn r0 (or_intror h))) as [L1 L2]. split; auto.
    intros Hcl. apply L2. intros; apply Hcl; right; auto.
  - intros p g i rs0 O1 O2 H1 H2 H3 Hx. discriminate.
  - intros p g i rs0 O1 O2 H1 H2 H3 Hx. discriminate.
Qed.
End Later.
