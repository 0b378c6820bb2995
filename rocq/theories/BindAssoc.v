(** Associativity of bind for the combinator functions. *)
From Verif Require Export Laws.

Section BindAssoc.
Context {T : Type}.

Lemma flat_mapM_2_ret {A B C} (F : A -> out (list B)) (G : B -> out (list C)) l r :
  (l1 <- flat_mapM F l ;; flat_mapM G l1) = Ret r <->
  flat_mapM (fun x => ys <- F x ;; flat_mapM G ys) l = Ret r.
Proof.
  assert (Happ : forall l1 l2, flat_mapM G (l1 ++ l2) =
    (x <- flat_mapM G l1 ;; y <- flat_mapM G l2 ;; Ret (x ++ y))).
  { induction l1 as [|x l1 IH]; intros l2; simpl.
    - destruct (flat_mapM G l2); reflexivity.
    - rewrite IH. destruct (G x); simpl; auto. destruct (flat_mapM G l1); simpl; auto.
      destruct (flat_mapM G l2); simpl; auto. rewrite app_assoc. reflexivity. }
  revert r. induction l as [|x l IH]; simpl; intros r; [reflexivity|].
  destruct (F x) as [y|e|]; simpl; [|split; discriminate|split; discriminate].
  split; intros H.
  - destruct (flat_mapM F l) as [ys|e|]; simpl in H; try discriminate.
    rewrite Happ in H. destruct (flat_mapM G y) as [z|e|]; simpl in *; try discriminate.
    apply obind_ret in H as [zs [Hz H]]. rewrite (proj1 (IH zs)); auto.
  - destruct (flat_mapM G y) as [z|e|] eqn:Hg; simpl in H; try discriminate.
    apply obind_ret in H as [zs [Hz H]]. apply IH in Hz.
    apply obind_ret in Hz as [ys [Hm Hz]]. rewrite Hm. simpl. rewrite Happ, Hg. simpl. rewrite Hz. exact H.
Qed.

Lemma flat_mapM_map {A B C} (F : B -> out (list C)) (h : A -> B) l :
  flat_mapM F (map h l) = flat_mapM (fun x => F (h x)) l.
Proof. induction l as [|x l IH]; simpl; auto. rewrite IH. reflexivity. Qed.
Lemma flat_mapM_omap {A B C} (F : A -> out (list B)) (h : B -> C) l :
  flat_mapM (fun x => omap (map h) (F x)) l = omap (map h) (flat_mapM F l).
Proof.
  induction l as [|x l IH]; simpl; auto. rewrite IH. unfold omap.
  destruct (F x); simpl; auto. destruct (flat_mapM F l); simpl; auto. rewrite map_app. reflexivity.
Qed.
Lemma flat_mapM_ret_iff {A B} (F G : A -> out (list B)) l r :
  (forall x, In x l -> forall z, F x = Ret z <-> G x = Ret z) ->
  (flat_mapM F l = Ret r <-> flat_mapM G l = Ret r).
Proof.
  revert r. induction l as [|x l IH]; simpl; intros r H; [reflexivity|].
  assert (K : forall r, flat_mapM F l = Ret r <-> flat_mapM G l = Ret r) by (intros; apply IH; auto).
  split; intros E.
  - apply obind_ret in E as [z [H1 E]]. apply obind_ret in E as [zs [H2 E]].
    apply H in H1; auto. apply K in H2. rewrite H1, H2. exact E.
  - apply obind_ret in E as [z [H1 E]]. apply obind_ret in E as [zs [H2 E]].
    apply H in H1; auto. apply K in H2. rewrite H1, H2. exact E.
Qed.

(** continue_parse commutes with prepend_expected *)
Lemma cont_one_prepend {A B C} ins (K : A -> nat -> ctx T -> Z -> out (res T B)) (merge : A -> B -> C)
    x b (r : repair T A) :
  cont_one ins K merge (rep_prepend x b r) = omap (map (rep_prepend x b)) (cont_one ins K merge r).
Proof.
  unfold cont_one, omap. rewrite obind_assoc. cbn [rep_prepend r_val r_pos r_ctx r_ins].
  apply obind_ext. intros rb. destruct rb as [o|e|rb]; simpl; auto.
  - f_equal. f_equal. unfold cont_ok, rep_prepend, append_expected; simpl.
    destruct r as [co pr i ops v p c e []], o as [v' p' c' e' []]; simpl; auto.
    + f_equal. apply orb_true_r.
    + unfold Append. rewrite app_assoc, orb_false_r. reflexivity.
  - f_equal. rewrite map_map. apply map_ext. intros rr.
    unfold cont_rec, rep_prepend, join_ops, append_expected; simpl.
    assert (Hops :
      map (fun i => OpItem (op_op i) (op_loc i) (op_exp i) (op_con i))
        (ops_prepend_expected (r_ops r) x b) ++
      ops_prepend_expected (r_ops rr) (if r_con r then r_exp r else Append x (r_exp r))
        (if r_con r then r_con r else r_con r || b) =
      ops_prepend_expected
        (map (fun i => OpItem (op_op i) (op_loc i) (op_exp i) (op_con i)) (r_ops r) ++
         ops_prepend_expected (r_ops rr) (r_exp r) (r_con r)) x b).
    { rewrite !copy_ops. unfold ops_prepend_expected at 3. rewrite map_app. f_equal.
      fold (ops_prepend_expected (ops_prepend_expected (r_ops rr) (r_exp r) (r_con r)) x b).
      rewrite ops_prepend_2. destruct (r_con r); reflexivity. }
    rewrite Hops. f_equal.
    + destruct (r_con rr); simpl; [rewrite orb_true_r; reflexivity|rewrite orb_false_r].
      destruct (r_con r); auto. unfold Append. rewrite app_assoc. reflexivity.
    + destruct (r_con r); simpl; auto. destruct (r_con rr); simpl; rewrite ?orb_true_r, ?orb_false_r; reflexivity.
Qed.
Lemma continue_prepend {A B C} (rc : recr T A) ins (K : A -> nat -> ctx T -> Z -> out (res T B))
    (merge : A -> B -> C) x b :
  continue_parse (rec_prepend x b rc) ins K merge =
  (r <- continue_parse rc ins K merge ;; Ret (res_prepend x b r)).
Proof.
  unfold continue_parse. simpl. rewrite flat_mapM_map.
  rewrite (flat_mapM_ext_in _ _ _ (fun r _ => cont_one_prepend ins K merge x b r)).
  rewrite flat_mapM_omap. unfold omap. rewrite !obind_assoc. apply obind_ext. intros reps. reflexivity.
Qed.

(** ... and with the continuation of another repair *)
Lemma cont_one_rec {A B C} ins (K : B -> nat -> ctx T -> Z -> out (res T C))
    (r : repair T A) (rr : repair T B) :
  cont_one ins K (fun (_ : B) (v : C) => v) (cont_rec (fun (_ : A) (v : B) => v) r rr) =
  omap (map (cont_rec (fun (_ : A) (v : C) => v) r)) (cont_one ins K (fun (_ : B) (v : C) => v) rr).
Proof.
  unfold cont_one, omap. rewrite obind_assoc.
  cbn [cont_rec r_val r_pos r_ctx r_ins].
  apply obind_ext. intros rb. destruct rb as [o|e|rb]; simpl; auto.
  - f_equal. f_equal. unfold cont_ok, cont_rec, join_ops, append_expected; simpl.
    f_equal.
    + destruct (ok_con o); [rewrite orb_true_r; reflexivity|rewrite orb_false_r].
      destruct (r_con rr); auto. unfold Append. rewrite app_assoc. reflexivity.
    + rewrite orb_assoc. reflexivity.
  - f_equal. rewrite map_map. apply map_ext. intros r3.
    unfold cont_rec, join_ops, append_expected; simpl. rewrite !copy_ops.
    f_equal.
    + lia.
    + rewrite <- !app_assoc. f_equal. unfold ops_prepend_expected at 3. rewrite map_app. f_equal.
      fold (ops_prepend_expected (ops_prepend_expected (r_ops r3) (r_exp rr) (r_con rr)) (r_exp r) (r_con r)).
      rewrite ops_prepend_2. rewrite (orb_comm (r_con r)).
      destruct (r_con rr); reflexivity.
    + destruct (r_con r3); [rewrite orb_true_r; reflexivity|rewrite orb_false_r].
      destruct (r_con rr); auto. unfold Append. rewrite app_assoc. reflexivity.
    + rewrite orb_assoc. reflexivity.
Qed.

Section Assoc.
Context {A B C : Type}.
Variable s : list T.
Let len := List.length s.
Variable p : pfull T A.
Variable f : A -> pfull T B.
Variable g : B -> pfull T C.
(** what parsers guarantee about positions *)
Hypothesis HF : forall v pos c ins rem o, pos <= len -> f v s pos c ins rem = Ret (ROk o) ->
  pos <= ok_pos o <= len /\ ok_con o = Nat.ltb pos (ok_pos o).
Hypothesis HG : forall v pos c ins rem o, pos <= len -> g v s pos c ins rem = Ret (ROk o) ->
  pos <= ok_pos o <= len /\ ok_con o = Nat.ltb pos (ok_pos o).
Hypothesis HP : forall pos c ins rem rc, pos <= len -> p s pos c ins rem = Ret (RRec rc) ->
  forall r, In r (rc_reps rc) -> r_pos r <= len.

Lemma bind_step ins r : r_pos r <= len ->
  forall z,
  (ys <- cont_one ins (fun v p c m => f v s p c ins (Some m)) (fun _ v => v) r ;;
   flat_mapM (cont_one ins (fun v p c m => g v s p c ins (Some m)) (fun _ v => v)) ys) = Ret z <->
  cont_one ins (fun v p c m => bind_full (f v) g s p c ins (Some m)) (fun _ v => v) r = Ret z.
Proof.
  intros Hr z. unfold cont_one at 1 3. unfold bind_full.
  destruct (f (r_val r) s (r_pos r) (r_ctx r) ins (Some (r_ins r))) as [[ob|e|rb]|e|] eqn:Hf; simpl; try tauto.
  - (* f returns *)
    destruct (HF _ _ _ _ _ _ Hr Hf) as [H1 H2].
    assert (Hrem : (if Nat.eqb (r_pos r) (ok_pos ob) then r_ins r else ins) =
                   (if ok_con ob then ins else r_ins r)).
    { rewrite H2. destruct (Nat.eqb_spec (r_pos r) (ok_pos ob)) as [He|He].
      - rewrite He, Nat.ltb_irrefl. reflexivity.
      - assert (Hl : Nat.ltb (r_pos r) (ok_pos ob) = true) by (apply Nat.ltb_lt; lia).
        rewrite Hl. reflexivity. }
    unfold cont_one. cbn [cont_ok r_val r_pos r_ctx r_ins]. rewrite Hrem.
    assert (K : forall (G : out (res T C)),
      (forall o, G = Ret (ROk o) -> ok_pos ob <= ok_pos o) ->
      ((y <- (rb <- G ;;
         match rb with
         | ROk o => Ret [cont_ok ins (fun (_ : B) (v : C) => v) (cont_ok ins (fun (_ : A) (v : B) => v) r ob) o]
         | RErr _ => Ret []
         | RRec rb0 => Ret (map (cont_rec (fun (_ : B) (v : C) => v) (cont_ok ins (fun (_ : A) (v : B) => v) r ob)) (rc_reps rb0))
         end) ;; Ret (y ++ [])) = Ret z <->
       (rb <- (rb <- G ;; Ret (res_prepend (ok_exp ob) (ok_con ob) rb)) ;;
         match rb with
         | ROk o => Ret [cont_ok ins (fun (_ : A) (v : C) => v) r o]
         | RErr _ => Ret []
         | RRec rb0 => Ret (map (cont_rec (fun (_ : A) (v : C) => v) r) (rc_reps rb0))
         end) = Ret z)).
    { intros G HGo. destruct G as [[oc|e|rc]|e|]; simpl; try tauto.
      - specialize (HGo _ eq_refl).
        assert (He : cont_ok ins (fun (_ : B) (v : C) => v) (cont_ok ins (fun (_ : A) (v : B) => v) r ob) oc =
                     cont_ok ins (fun (_ : A) (v : C) => v) r (ok_prepend (ok_exp ob) (ok_con ob) oc)).
        { assert (Hpre : ok_prepend (ok_exp ob) (ok_con ob) oc =
            Ok (ok_val oc) (ok_pos oc) (ok_ctx oc) (if ok_con oc then ok_exp oc else Append (ok_exp ob) (ok_exp oc))
              (ok_con oc || ok_con ob)).
          { destruct oc as [? ? ? ? []]; reflexivity. }
          rewrite Hpre. unfold cont_ok, append_expected. simpl. f_equal.
          - destruct (Nat.eqb_spec (ok_pos ob) (ok_pos oc)) as [E1|E1].
            + rewrite E1. reflexivity.
            + destruct (Nat.eqb_spec (r_pos r) (ok_pos oc)); [lia|reflexivity].
          - destruct (ok_con oc); simpl; auto.
            destruct (ok_con ob); simpl; auto. unfold Append. rewrite app_assoc. reflexivity.
          - destruct (r_con r), (ok_con ob), (ok_con oc); reflexivity. }
        rewrite He. tauto.
      - rewrite app_nil_r.
        assert (He : map (cont_rec (fun (_ : B) (v : C) => v) (cont_ok ins (fun (_ : A) (v : B) => v) r ob)) (rc_reps rc) =
                     map (cont_rec (fun (_ : A) (v : C) => v) r) (map (rep_prepend (ok_exp ob) (ok_con ob)) (rc_reps rc))).
        { rewrite map_map. apply map_ext. intros rr.
          unfold cont_rec, cont_ok, rep_prepend, join_ops, append_expected; simpl.
          rewrite !copy_ops, ops_prepend_2. f_equal.
          - rewrite (orb_comm (r_con r)). destruct (ok_con ob); reflexivity.
          - destruct (r_con rr); simpl; auto. destruct (ok_con ob); simpl; auto.
            unfold Append. rewrite app_assoc. reflexivity.
          - destruct (r_con r), (r_con rr), (ok_con ob); reflexivity. }
        rewrite He. tauto. }
    destruct (ok_con ob) eqn:Hcb; apply K; intros o Ho; eapply HG in Ho; lia.
  - (* f returns a list of repairs *)
    rewrite flat_mapM_map.
    rewrite (flat_mapM_ext_in _ (fun rr => omap (map (cont_rec (fun (_ : A) (v : C) => v) r))
      (cont_one ins (fun v p c m => g v s p c ins (Some m)) (fun (_ : B) (v : C) => v) rr))).
    2:{ intros rr _. apply cont_one_rec. }
    rewrite flat_mapM_omap. unfold continue_parse, omap.
    destruct (flat_mapM _ (rc_reps rb)) as [reps|e|]; simpl; tauto.
Qed.

Theorem bind_full_assoc pos c ins rem r : pos <= len ->
  (bind_full (bind_full p f) g s pos c ins rem = Ret r <->
   bind_full p (fun x => bind_full (f x) g) s pos c ins rem = Ret r).
Proof.
  intros Hpos. unfold bind_full at 1 2 3.
  destruct (p s pos c ins rem) as [[oa|e|ra]|e|] eqn:Hp; cbn [obind]; try tauto.
  - assert (K : forall rem' : option Z, ok_con oa = true /\ rem' = Some ins \/ ok_con oa = false /\ rem' = rem ->
      (ra <- (rb <- f (ok_val oa) s (ok_pos oa) (ok_ctx oa) ins rem';; Ret (res_prepend (ok_exp oa) (ok_con oa) rb));;
       match ra with
       | ROk oa0 =>
           if ok_con oa0
           then rb <- g (ok_val oa0) s (ok_pos oa0) (ok_ctx oa0) ins (Some ins);; Ret (res_prepend (ok_exp oa0) (ok_con oa0) rb)
           else rb <- g (ok_val oa0) s (ok_pos oa0) (ok_ctx oa0) ins rem;; Ret (res_prepend (ok_exp oa0) (ok_con oa0) rb)
       | RErr e => Ret (RErr e)
       | RRec ra0 => continue_parse ra0 ins (fun v p c r => g v s p c ins (Some r)) (fun _ v => v)
       end) =
      (rb <- bind_full (f (ok_val oa)) g s (ok_pos oa) (ok_ctx oa) ins rem';; Ret (res_prepend (ok_exp oa) (ok_con oa) rb))).
    { intros rem' Hrem. unfold bind_full.
      destruct (f (ok_val oa) s (ok_pos oa) (ok_ctx oa) ins rem') as [[ob|e|rb]|e|]; cbn [obind res_prepend]; auto.
      - assert (Hpre : ok_prepend (ok_exp oa) (ok_con oa) ob =
            Ok (ok_val ob) (ok_pos ob) (ok_ctx ob) (if ok_con ob then ok_exp ob else Append (ok_exp oa) (ok_exp ob))
              (ok_con ob || ok_con oa)).
        { destruct ob as [? ? ? ? []]; reflexivity. }
        rewrite Hpre. cbn [ok_val ok_pos ok_ctx ok_exp ok_con].
        destruct (ok_con ob) eqn:Hcb; cbn [orb].
        + rewrite obind_assoc. apply obind_ext. intros x. cbn [obind]. rewrite res_prepend_2. reflexivity.
        + destruct Hrem as [[Hc ->]|[Hc ->]]; rewrite Hc; rewrite obind_assoc; apply obind_ext; intros x;
            cbn [obind]; rewrite res_prepend_2; reflexivity.
      - rewrite continue_prepend. reflexivity. }
    destruct (ok_con oa) eqn:Hca; rewrite K; auto; tauto.
  - unfold continue_parse at 1. rewrite obind_assoc.
    transitivity (reps <- (reps <- flat_mapM (cont_one ins (fun v p c r => f v s p c ins (Some r)) (fun _ v => v)) (rc_reps ra) ;;
       flat_mapM (cont_one ins (fun v p c r => g v s p c ins (Some r)) (fun _ v => v)) reps) ;;
       Ret (RRec (Recd reps (rc_min ra) (rc_loc ra) (rc_exp ra) (rc_con ra))) = Ret r).
    { rewrite obind_assoc. unfold continue_parse. cbn [obind rc_reps rc_min rc_loc rc_exp rc_con]. reflexivity. }
    unfold continue_parse.
    assert (K : forall z,
      (reps <- flat_mapM (cont_one ins (fun v p c r => f v s p c ins (Some r)) (fun _ v => v)) (rc_reps ra) ;;
       flat_mapM (cont_one ins (fun v p c r => g v s p c ins (Some r)) (fun _ v => v)) reps) = Ret z <->
      flat_mapM (cont_one ins (fun v p c r => bind_full (f v) g s p c ins (Some r)) (fun _ v => v)) (rc_reps ra) = Ret z).
    { intros z. rewrite flat_mapM_2_ret. apply flat_mapM_ret_iff. intros x Hx.
      apply bind_step. eapply HP; eauto. }
    split; intros H; apply obind_ret in H as [z [H1 H2]].
    + apply K in H1. rewrite H1. exact H2.
    + apply K in H1. rewrite H1. exact H2.
Qed.
End Assoc.

Lemma bind_fast_assoc {A B C} (p : pfast T A) (f : A -> pfast T B) (g : B -> pfast T C) s pos c :
  bind_fast (bind_fast p f) g s pos c = bind_fast p (fun x => bind_fast (f x) g) s pos c.
Proof.
  unfold bind_fast. destruct (p s pos c) as [[oa|e]|e|]; cbn [obind]; auto.
  destruct (f (ok_val oa) s (ok_pos oa) (ok_ctx oa)) as [[ob|e]|e|]; cbn [obind sres_prepend]; auto.
  assert (Hpre : ok_prepend (ok_exp oa) (ok_con oa) ob =
      Ok (ok_val ob) (ok_pos ob) (ok_ctx ob) (if ok_con ob then ok_exp ob else Append (ok_exp oa) (ok_exp ob))
        (ok_con ob || ok_con oa)).
  { destruct ob as [? ? ? ? []]; reflexivity. }
  rewrite Hpre. cbn [ok_val ok_pos ok_ctx ok_exp ok_con]. rewrite obind_assoc. apply obind_ext.
  intros x. cbn [obind]. rewrite sres_prepend_2. reflexivity.
Qed.
End BindAssoc.
