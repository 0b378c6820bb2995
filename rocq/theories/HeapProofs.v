(** The heap semantics refines the functional one: proofs. *)
From Coq Require Import Permutation.
From Verif Require Export HeapSpec.

Section Basics.
Context {T : Type}.
Notation heap := (heap T).
Notation M := (M T).

Lemma extends_refl (h : heap) : extends h h.
Proof. split; auto. Qed.
Lemma extends_trans (h1 h2 h3 : heap) : extends h1 h2 -> extends h2 h3 -> extends h1 h3.
Proof.
  intros [H1 H2] [H3 H4]. split; [lia|]. intros a Ha. rewrite H4 by lia. auto.
Qed.
Lemma extends_new (h0 h : heap) c : extends h0 h -> extends h0 (new_cell h c).
Proof.
  intros [H1 H2]. split; simpl; [lia|]. intros a Ha.
  destruct (Nat.eqb_spec a (h_next h)); [lia|auto].
Qed.
Lemma extends_new' (h : heap) c : extends h (new_cell h c).
Proof. apply extends_new, extends_refl. Qed.

Definition same_on (l : list nat) (h h' : heap) : Prop := forall a, In a l -> h_cell h' a = h_cell h a.
Lemma extends_same h h' l : extends h h' -> (forall a, In a l -> a < h_next h) -> same_on l h h'.
Proof. intros [_ H] Hl a Ha. auto. Qed.

Lemma rd_ops_same h h' l : same_on (map hp_addr l) h h' -> map (rd_op h') l = map (rd_op h) l.
Proof.
  intros H. apply map_ext_in. intros o Ho. unfold rd_op. rewrite (H (hp_addr o)); auto. apply in_map; auto.
Qed.
Lemma rd_rep_same A h h' (r : hrep A) : same_on (rep_addrs r) h h' -> rd_rep h' r = rd_rep h r.
Proof.
  intros H. unfold rd_rep. rewrite (H (hr_addr r)) by (left; auto). rewrite (rd_ops_same h h'); auto.
  intros a Ha. apply H. right; auto.
Qed.
Lemma rd_reps_same A h h' (l : list (hrep A)) :
  same_on (flat_map rep_addrs l) h h' -> map (rd_rep h') l = map (rd_rep h) l.
Proof.
  intros H. apply map_ext_in. intros r Hr. apply rd_rep_same. intros a Ha. apply H.
  apply in_flat_map. eauto.
Qed.
Lemma rd_s_same A h h' (r : hsres A) : same_on (s_addrs r) h h' -> rd_s h' r = rd_s h r.
Proof.
  intros H. specialize (H (hs_addr r) (or_introl eq_refl)).
  destruct r; simpl in *; unfold rd_ok, rd_err; rewrite H; auto.
Qed.
Lemma rd_same A h h' (r : hres A) : same_on (addrs r) h h' -> rd h' r = rd h r.
Proof.
  intros H. pose proof (H (h_addr r) (or_introl eq_refl)) as H1.
  destruct r; simpl in *; unfold rd_ok, rd_err, rd_rec; rewrite H1; auto.
  rewrite (rd_reps_same _ h h'); auto. intros a Ha. apply H. right. auto.
Qed.

Lemma fresh_valid (h h' : heap) l a : fresh_objects h h' l -> In a l -> a < h_next h'.
Proof. intros [_ H] Ha. apply H; auto. Qed.
Lemma fresh_weaken (h0 h h' h'' : heap) l :
  fresh_objects h h' l -> h_next h0 <= h_next h -> h_next h' <= h_next h'' -> fresh_objects h0 h'' l.
Proof. intros [H1 H2] H3 H4. split; auto. intros a Ha. apply H2 in Ha. lia. Qed.

(** ** Running statements *)
Definition wp {X Y} (h0 : heap) (r : heap * out X) (o : out Y) (Q : heap -> X -> Y -> Prop) : Prop :=
  extends h0 (fst r) /\
  match snd r, o with
  | Ret x, Ret y => Q (fst r) x y
  | Raise e, Raise e' => e = e'
  | NoFuel, NoFuel => True
  | _, _ => False
  end.

Lemma wp_ret {X Y} h0 h (x : X) (y : Y) (Q : heap -> X -> Y -> Prop) : extends h0 h -> Q h x y -> wp h0 (ret x h) (Ret y) Q.
Proof. intros. split; auto. Qed.
Lemma wp_bind {X Y X' Y'} h0 h (m : M X) (o : out Y) (R : heap -> X -> Y -> Prop)
    (k : X -> M X') (k' : Y -> out Y') Q :
  wp h0 (m h) o R ->
  (forall h1 x y, extends h0 h1 -> R h1 x y -> wp h0 (k x h1) (k' y) Q) ->
  wp h0 (bindM m k h) (obind o k') Q.
Proof.
  unfold bindM. intros [H1 H2] K. destruct (m h) as [h1 [x|e|]]; simpl in *; destruct o as [y|e'|]; try tauto; simpl.
  - apply K; auto.
  - subst. split; auto. reflexivity.
  - split; simpl; auto.
Qed.
Lemma wp_base {X Y} h0 h (r : heap * out X) (o : out Y) Q : extends h0 h -> wp h r o Q -> wp h0 r o Q.
Proof. intros H [H1 H2]. split; auto. eapply extends_trans; eauto. Qed.
Lemma wp_weaken {X Y} h0 (r : heap * out X) (o : out Y) (Q Q' : heap -> X -> Y -> Prop) :
  wp h0 r o Q -> (forall h x y, extends h0 h -> Q h x y -> Q' h x y) -> wp h0 r o Q'.
Proof.
  intros [H1 H2] H. split; auto. destruct (snd r), o; auto.
Qed.
Lemma wp_call {X Y} h0 h (o : out X) (k : X -> M Y) {Z} (k' : X -> out Z) Q :
  extends h0 h -> (forall x, o = Ret x -> wp h0 (k x h) (k' x) Q) ->
  wp h0 (bindM (call o) k h) (obind o k') Q.
Proof.
  intros H K. unfold bindM, call. destruct o; simpl.
  - auto.
  - split; auto. reflexivity.
  - split; simpl; auto.
Qed.

(** statements that cannot fail *)
Lemma bind_done {X Y} (m : M X) (k : X -> M Y) h h1 x : m h = (h1, Ret x) -> bindM m k h = k x h1.
Proof. intros H. unfold bindM. rewrite H. reflexivity. Qed.

(** ** Updates in place *)
Definition upds (l : list nat) (f : cell T -> cell T) (h h' : heap) : Prop :=
  h_next h' = h_next h /\ (forall a, In a l -> h_cell h' a = f (h_cell h a)) /\
  (forall a, ~ In a l -> h_cell h' a = h_cell h a).

Definition f_exp (x : list string) (c : cell T) : cell T :=
  if c_con c then c else Cell (c_prio c) (c_ctx c) x (c_con c).
Definition f_prep (x : list string) (b : bool) (c : cell T) : cell T :=
  if c_con c then c else Cell (c_prio c) (c_ctx c) (Append x (c_exp c)) (c_con c || b).
Definition f_ctx (x : ctx T) (c : cell T) : cell T := Cell (c_prio c) x (c_exp c) (c_con c).
Definition f_prio (c : cell T) : cell T :=
  Cell (match c_prio c with None => Some 0 | Some p => Some p end) (c_ctx c) (c_exp c) (c_con c).

Definition updates1 (m : nat -> M unit) (f : cell T -> cell T) : Prop :=
  forall a h, exists h', m a h = (h', Ret tt) /\ upds [a] f h h'.

Lemma upds_set a c f h : f (h_cell h a) = c -> upds [a] f h (set_cell h a c).
Proof.
  intros H. repeat split; simpl; auto.
  - intros b [->|[]]. rewrite Nat.eqb_refl. auto.
  - intros b Hb. destruct (Nat.eqb_spec b a); [subst; tauto|auto].
Qed.
Lemma upds_skip a f (h : heap) : f (h_cell h a) = h_cell h a -> upds [a] f h h.
Proof. intros H. repeat split; auto. intros b [->|[]]. auto. Qed.
Lemma set_set (h : heap) a c c' : forall b, h_cell (set_cell (set_cell h a c) a c') b = h_cell (set_cell h a c') b.
Proof. intros b. simpl. destruct (Nat.eqb b a); auto. Qed.

Lemma at_set_exp_upd x : updates1 (at_set_exp x) (f_exp x).
Proof.
  intros a h. unfold at_set_exp, bindM, get, put_exp, put, ret, bindM, get.
  destruct (c_con (h_cell h a)) eqn:Hc; eexists; split; try reflexivity.
  - apply upds_skip. unfold f_exp. rewrite Hc. auto.
  - apply upds_set. unfold f_exp. rewrite Hc. auto.
Qed.
Lemma at_prepend_upd x b : updates1 (at_prepend x b) (f_prep x b).
Proof.
  intros a h. unfold at_prepend, bindM, get, put_exp, put_con, put, ret, bindM, get.
  destruct (c_con (h_cell h a)) eqn:Hc; eexists; split; try reflexivity.
  - apply upds_skip. unfold f_prep. rewrite Hc. auto.
  - cbn. rewrite Nat.eqb_refl. cbn. repeat split; simpl; auto.
    + intros a' [->|[]]. rewrite Nat.eqb_refl. unfold f_prep. rewrite Hc. auto.
    + intros a' Ha. destruct (Nat.eqb_spec a' a); [subst; tauto|auto].
Qed.
Lemma put_ctx_upd x : updates1 (fun a => put_ctx a x) (f_ctx x).
Proof.
  intros a h. unfold put_ctx, bindM, get, put. eexists; split; try reflexivity. apply upds_set. auto.
Qed.
Lemma set_prio_upd : updates1 (fun a => c <~ get a ;;
    match c_prio c with None => put_prio a (Some 0) | Some _ => ret tt end) f_prio.
Proof.
  intros a h. unfold put_prio, bindM, get, put, ret. destruct (c_prio (h_cell h a)) eqn:Hp; eexists; split; try reflexivity.
  - apply upds_skip. unfold f_prio. rewrite Hp. destruct (h_cell h a); simpl in *; subst; auto.
  - apply upds_set. unfold f_prio. rewrite Hp. auto.
Qed.

Lemma iter_upds m f l h : updates1 m f -> NoDup l ->
  exists h', iterH m l h = (h', Ret tt) /\ upds l f h h'.
Proof.
  intros Hm Hl. revert h. induction Hl as [|a l Ha Hl IH]; intros h.
  - exists h. split; auto. repeat split; auto. intros a [].
  - destruct (Hm a h) as (h1 & E1 & N1 & U1 & O1). destruct (IH h1) as (h2 & E2 & N2 & U2 & O2).
    exists h2. split.
    + simpl. rewrite (bind_done _ _ _ _ _ E1). exact E2.
    + split; [congruence|]. split.
      * intros b [->|Hb].
        -- rewrite O2 by auto. apply U1. left; auto.
        -- rewrite U2 by auto. rewrite O1; auto. intros [->|[]]. tauto.
      * intros b Hb. simpl in Hb. rewrite O2 by tauto. apply O1. simpl. tauto.
Qed.
Lemma iter_app {X} (m : X -> M unit) l1 l2 h :
  iterH m (l1 ++ l2) h = bindM (iterH m l1) (fun _ => iterH m l2) h.
Proof.
  revert h. induction l1 as [|x l1 IH]; intros h; simpl.
  - reflexivity.
  - unfold bindM. destruct (m x h) as [h1 [u|e|]]; auto. apply IH.
Qed.
Lemma iter_map {X Y} (f : X -> Y) (m : Y -> M unit) l h : iterH m (map f l) h = iterH (fun x => m (f x)) l h.
Proof.
  revert h. induction l as [|x l IH]; intros h; simpl; auto. unfold bindM.
  destruct (m (f x) h) as [h1 [u|e|]]; auto.
Qed.
Lemma iter_flat {X Y} (f : X -> list Y) (m : Y -> M unit) (m' : X -> M unit) l h :
  (forall x h, m' x h = iterH m (f x) h) ->
  iterH m (flat_map f l) h = iterH m' l h.
Proof.
  intros H. revert h. induction l as [|x l IH]; intros h; simpl; auto. rewrite iter_app. unfold bindM.
  rewrite <- H. destruct (m' x h) as [h1 [u|e|]]; auto.
Qed.

Lemma upds_extends l f h0 h h' : upds l f h h' -> (forall a, In a l -> h_next h0 <= a) ->
  extends h0 h -> extends h0 h'.
Proof.
  intros (N & U & O) Hl [H1 H2]. split; [lia|]. intros a Ha. rewrite O; auto. intros K. apply Hl in K. lia.
Qed.
Lemma fresh_upds (h0 h h' : heap) l l' f : upds l f h h' -> fresh_objects h0 h l' -> fresh_objects h0 h' l'.
Proof. intros (N & _) [H1 H2]. split; auto. intros a Ha. rewrite N. auto. Qed.

(** the whole-object updates are updates of all reachable cells *)
Lemma h_set_exp_iter A x (r : hres A) (h : heap) :
  h_set_exp x r h = bindM (iterH (at_set_exp x) (addrs r)) (fun _ => ret r) h.
Proof.
  destruct r as [o|e|r]; simpl; unfold bindM; destruct (at_set_exp x _ h) as [h1 [u|e'|]]; auto.
  rewrite (iter_flat rep_addrs (at_set_exp x) (h_rep_set_exp x)); auto.
  intros y h'. unfold h_rep_set_exp, rep_addrs, h_ops_set_expected. simpl. unfold bindM.
  destruct (at_set_exp x _ h') as [h2 [u'|e'|]]; auto. rewrite iter_map. auto.
Qed.
Lemma h_prepend_iter A x b (r : hres A) (h : heap) :
  h_prepend x b r h = bindM (iterH (at_prepend x b) (addrs r)) (fun _ => ret r) h.
Proof.
  destruct r as [o|e|r]; simpl; unfold bindM; destruct (at_prepend x b _ h) as [h1 [u|e'|]]; auto.
  rewrite (iter_flat rep_addrs (at_prepend x b) (h_rep_prepend x b)); auto.
  intros y h'. unfold h_rep_prepend, rep_addrs, h_ops_prepend_expected. simpl. unfold bindM.
  destruct (at_prepend x b _ h') as [h2 [u'|e'|]]; auto. rewrite iter_map. auto.
Qed.

Lemma op_upd_exp x h h' o : h_cell h' (hp_addr o) = f_exp x (h_cell h (hp_addr o)) ->
  rd_op h' o = (if op_con (rd_op h o) then rd_op h o
                else OpItem (op_op (rd_op h o)) (op_loc (rd_op h o)) x (op_con (rd_op h o))).
Proof. intros H. unfold rd_op. rewrite H. unfold f_exp. simpl. destruct (c_con (h_cell h (hp_addr o))) eqn:E; simpl; rewrite ?E; auto. Qed.
Lemma ops_upd_exp x h h' l : (forall a, In a (map hp_addr l) -> h_cell h' a = f_exp x (h_cell h a)) ->
  map (rd_op h') l = ops_set_expected (map (rd_op h) l) x.
Proof.
  intros H. unfold ops_set_expected. rewrite map_map. apply map_ext_in. intros o Ho. apply op_upd_exp.
  apply H, in_map, Ho.
Qed.
Lemma ops_upd_prep x b h h' l : (forall a, In a (map hp_addr l) -> h_cell h' a = f_prep x b (h_cell h a)) ->
  map (rd_op h') l = ops_prepend_expected (map (rd_op h) l) x b.
Proof.
  intros H. unfold ops_prepend_expected. rewrite map_map. apply map_ext_in. intros o Ho.
  unfold rd_op. rewrite (H (hp_addr o)) by (apply in_map, Ho). unfold f_prep. simpl.
  destruct (c_con (h_cell h (hp_addr o))) eqn:E; simpl; rewrite ?E; auto.
Qed.
Lemma rep_upd_exp A x h h' (r : hrep A) : (forall a, In a (rep_addrs r) -> h_cell h' a = f_exp x (h_cell h a)) ->
  rd_rep h' r = rep_set_exp x (rd_rep h r).
Proof.
  intros H. unfold rd_rep, rep_set_exp. simpl. rewrite (ops_upd_exp x h h') by (intros a Ha; apply H; right; auto).
  rewrite (H (hr_addr r)) by (left; auto). unfold f_exp. destruct (c_con (h_cell h (hr_addr r))) eqn:E; simpl; rewrite ?E; auto.
Qed.
Lemma rep_upd_prep A x b h h' (r : hrep A) : (forall a, In a (rep_addrs r) -> h_cell h' a = f_prep x b (h_cell h a)) ->
  rd_rep h' r = rep_prepend x b (rd_rep h r).
Proof.
  intros H. unfold rd_rep, rep_prepend. simpl. rewrite (ops_upd_prep x b h h') by (intros a Ha; apply H; right; auto).
  rewrite (H (hr_addr r)) by (left; auto). unfold f_prep. destruct (c_con (h_cell h (hr_addr r))) eqn:E; simpl; rewrite ?E; auto.
Qed.

Lemma rd_upd_exp A x h h' (r : hres A) : upds (addrs r) (f_exp x) h h' -> rd h' r = res_set_exp x (rd h r).
Proof.
  intros (N & U & O). pose proof (U (h_addr r) (or_introl eq_refl)) as U1.
  destruct r as [o|e|r]; simpl in *; unfold rd_ok, rd_err, rd_rec, ok_set_exp, er_set_exp, rec_set_exp; simpl.
  - rewrite U1. unfold f_exp. destruct (c_con (h_cell h (hk_addr o))) eqn:E; simpl; rewrite ?E; auto.
  - rewrite U1. unfold f_exp. destruct (c_con (h_cell h (he_addr e))) eqn:E; simpl; rewrite ?E; auto.
  - f_equal. rewrite U1. rewrite map_map.
    rewrite (map_ext_in (rd_rep h') (fun y => rep_set_exp x (rd_rep h y))).
    + unfold f_exp. destruct (c_con (h_cell h (hc_addr r))) eqn:E; simpl; rewrite ?E; auto.
    + intros p Hp. apply rep_upd_exp. intros a Ha. apply U. right. apply in_flat_map. eauto.
Qed.
Lemma rd_upd_prep A x b h h' (r : hres A) : upds (addrs r) (f_prep x b) h h' -> rd h' r = res_prepend x b (rd h r).
Proof.
  intros (N & U & O). pose proof (U (h_addr r) (or_introl eq_refl)) as U1.
  destruct r as [o|e|r]; simpl in *; unfold rd_ok, rd_err, rd_rec, ok_prepend, er_prepend, rec_prepend; simpl.
  - rewrite U1. unfold f_prep. destruct (c_con (h_cell h (hk_addr o))) eqn:E; simpl; rewrite ?E; auto.
  - rewrite U1. unfold f_prep. destruct (c_con (h_cell h (he_addr e))) eqn:E; simpl; rewrite ?E; auto.
  - f_equal. rewrite U1. rewrite map_map.
    rewrite (map_ext_in (rd_rep h') (fun y => rep_prepend x b (rd_rep h y))).
    + unfold f_prep. destruct (c_con (h_cell h (hc_addr r))) eqn:E; simpl; rewrite ?E; auto.
    + intros p Hp. apply rep_upd_prep. intros a Ha. apply U. right. apply in_flat_map. eauto.
Qed.
Lemma rd_s_upd_exp A x h h' (r : hsres A) : upds (s_addrs r) (f_exp x) h h' -> rd_s h' r = sres_set_exp x (rd_s h r).
Proof.
  intros (N & U & O). pose proof (U (hs_addr r) (or_introl eq_refl)) as U1.
  destruct r as [o|e]; simpl in *; unfold rd_ok, rd_err, ok_set_exp, er_set_exp; simpl;
    rewrite U1; unfold f_exp; destruct (c_con (h_cell h _)) eqn:E; simpl; rewrite ?E; auto.
Qed.
Lemma rd_s_upd_prep A x b h h' (r : hsres A) : upds (s_addrs r) (f_prep x b) h h' -> rd_s h' r = sres_prepend x b (rd_s h r).
Proof.
  intros (N & U & O). pose proof (U (hs_addr r) (or_introl eq_refl)) as U1.
  destruct r as [o|e]; simpl in *; unfold rd_ok, rd_err, ok_prepend, er_prepend; simpl;
    rewrite U1; unfold f_prep; destruct (c_con (h_cell h _)) eqn:E; simpl; rewrite ?E; auto.
Qed.

(** heads and operations of a list of repairs *)
Definition heads {A} (l : list (hrep A)) : list nat := map hr_addr l.
Definition op_addrs {A} (l : list (hrep A)) : list nat := flat_map (fun r => map hp_addr (hr_ops r)) l.
Lemma addrs_perm {A} (l : list (hrep A)) : Permutation (flat_map rep_addrs l) (heads l ++ op_addrs l).
Proof.
  induction l as [|r l IH]; simpl; auto. apply perm_skip.
  rewrite (Permutation_app_comm (heads l)). rewrite <- app_assoc. apply Permutation_app_head.
  rewrite Permutation_app_comm. auto.
Qed.
Lemma NoDup_split {X} (l1 l2 : list X) : NoDup (l1 ++ l2) <->
  NoDup l1 /\ NoDup l2 /\ (forall a, In a l1 -> In a l2 -> False).
Proof.
  induction l1 as [|x l1 IH]; simpl.
  - split; [intros H; repeat split; auto; constructor|intros (_ & H & _); auto].
  - split.
    + intros H. inversion H as [|? ? H1 H2]; subst. apply IH in H2 as (A1 & A2 & A3). rewrite in_app_iff in H1.
      repeat split; auto; [constructor; tauto|]. intros a [->|Ha] Hb; eauto.
    + intros (H1 & H2 & H3). inversion H1; subst. constructor.
      * rewrite in_app_iff. intros [K|K]; eauto.
      * apply IH. eauto 6.
Qed.
Lemma NoDup_addrs {A} (l : list (hrep A)) : NoDup (flat_map rep_addrs l) <->
  NoDup (heads l) /\ NoDup (op_addrs l) /\ (forall a, In a (heads l) -> In a (op_addrs l) -> False).
Proof.
  rewrite <- NoDup_split. split; apply Permutation_NoDup; [|apply Permutation_sym]; apply addrs_perm.
Qed.
Lemma in_addrs {A} (l : list (hrep A)) a : In a (flat_map rep_addrs l) <-> In a (heads l) \/ In a (op_addrs l).
Proof.
  rewrite <- in_app_iff. split; apply Permutation_in; [|apply Permutation_sym]; apply addrs_perm.
Qed.
Lemma head_not_op {A} (l : list (hrep A)) (r : hrep A) a : NoDup (flat_map rep_addrs l) -> In r l ->
  In a (heads l) -> In a (map hp_addr (hr_ops r)) -> False.
Proof.
  intros H Hr Ha Ho. apply NoDup_addrs in H as (_ & _ & H). apply (H a Ha). apply in_flat_map. eauto.
Qed.

(** updates of the heads only *)
Lemma reps_upd_heads {A} f (g : repair T A -> repair T A) h h' (l : list (hrep A)) :
  NoDup (flat_map rep_addrs l) -> upds (heads l) f h h' ->
  (forall r : hrep A, h_cell h' (hr_addr r) = f (h_cell h (hr_addr r)) ->
     map (rd_op h') (hr_ops r) = map (rd_op h) (hr_ops r) -> rd_rep h' r = g (rd_rep h r)) ->
  map (rd_rep h') l = map g (map (rd_rep h) l).
Proof.
  intros Hn (N & U & O) Hg. rewrite map_map. apply map_ext_in. intros r Hr. apply Hg.
  - apply U. apply in_map; auto.
  - apply rd_ops_same. intros a Ha. apply O. intros K. exact (head_not_op l r a Hn Hr K Ha).
Qed.

Lemma h_set_ctx_ok A c (r : hres A) (h0 h : heap) : fresh_objects h0 h (addrs r) -> extends h0 h ->
  exists h', h_set_ctx c r h = (h', Ret r) /\ extends h0 h' /\ h_next h' = h_next h /\
    rd h' r = res_set_ctx c (rd h r).
Proof.
  intros [Hn Hv] He. destruct r as [o|e|r]; simpl.
  - destruct (put_ctx_upd c (hk_addr o) h) as (h' & E & U). exists h'. rewrite (bind_done _ _ _ _ _ E).
    split; [reflexivity|]. split; [|split; [apply U|]].
    + apply (upds_extends _ _ _ _ _ U); auto. intros a [<-|[]]. apply Hv. left; auto.
    + destruct U as (N & U & O). unfold rd_ok, ok_set_ctx. simpl. rewrite (U (hk_addr o)) by (left; auto). auto.
  - exists h. repeat split; auto; apply He.
  - assert (Hn' : NoDup (flat_map rep_addrs (hc_reps r))) by (inversion Hn; auto).
    destruct (iter_upds _ _ (heads (hc_reps r)) h (put_ctx_upd c)) as (h' & E & U).
    { apply NoDup_addrs in Hn'. tauto. }
    exists h'. unfold heads in E. rewrite iter_map in E. rewrite (bind_done _ _ _ _ _ E).
    split; [reflexivity|]. split; [|split; [apply U|]].
    + apply (upds_extends _ _ _ _ _ U); auto. intros a Ha. apply Hv. right. apply in_addrs. auto.
    + unfold rd_rec, rec_set_ctx. simpl. f_equal.
      rewrite (reps_upd_heads (f_ctx c) (rep_set_ctx c) h h'); auto.
      * destruct U as (N & U & O). rewrite (O (hc_addr r)); auto. intros K. inversion Hn; subst.
        apply H1. apply in_addrs. auto.
      * intros p Hp Ho. unfold rd_rep, rep_set_ctx. simpl. rewrite Hp, Ho. auto.
Qed.
Lemma hs_set_ctx_ok A c (r : hsres A) (h0 h : heap) : fresh_objects h0 h (s_addrs r) -> extends h0 h ->
  exists h', hs_set_ctx c r h = (h', Ret r) /\ extends h0 h' /\ h_next h' = h_next h /\
    rd_s h' r = sres_set_ctx c (rd_s h r).
Proof.
  intros [Hn Hv] He. destruct r as [o|e]; simpl.
  - destruct (put_ctx_upd c (hk_addr o) h) as (h' & E & U). exists h'. rewrite (bind_done _ _ _ _ _ E).
    split; [reflexivity|]. split; [|split; [apply U|]].
    + apply (upds_extends _ _ _ _ _ U); auto. intros a [<-|[]]. apply Hv. left; auto.
    + destruct U as (N & U & O). unfold rd_ok, ok_set_ctx. simpl. rewrite (U (hk_addr o)) by (left; auto). auto.
  - exists h. repeat split; auto; apply He.
Qed.
Lemma h_set_exp_ok A x (r : hres A) (h0 h : heap) : fresh_objects h0 h (addrs r) -> extends h0 h ->
  exists h', h_set_exp x r h = (h', Ret r) /\ extends h0 h' /\ h_next h' = h_next h /\
    rd h' r = res_set_exp x (rd h r).
Proof.
  intros [Hn Hv] He. destruct (iter_upds _ _ (addrs r) h (at_set_exp_upd x) Hn) as (h' & E & U).
  exists h'. rewrite h_set_exp_iter, (bind_done _ _ _ _ _ E). split; [reflexivity|].
  split; [|split; [apply U|]].
  - apply (upds_extends _ _ _ _ _ U); auto. intros a Ha. apply Hv; auto.
  - apply rd_upd_exp; auto.
Qed.
Lemma h_prepend_ok A x b (r : hres A) (h0 h : heap) : fresh_objects h0 h (addrs r) -> extends h0 h ->
  exists h', h_prepend x b r h = (h', Ret r) /\ extends h0 h' /\ h_next h' = h_next h /\
    rd h' r = res_prepend x b (rd h r).
Proof.
  intros [Hn Hv] He. destruct (iter_upds _ _ (addrs r) h (at_prepend_upd x b) Hn) as (h' & E & U).
  exists h'. rewrite h_prepend_iter, (bind_done _ _ _ _ _ E). split; [reflexivity|].
  split; [|split; [apply U|]].
  - apply (upds_extends _ _ _ _ _ U); auto. intros a Ha. apply Hv; auto.
  - apply rd_upd_prep; auto.
Qed.
Lemma hs_set_exp_ok A x (r : hsres A) (h0 h : heap) : fresh_objects h0 h (s_addrs r) -> extends h0 h ->
  exists h', hs_set_exp x r h = (h', Ret r) /\ extends h0 h' /\ h_next h' = h_next h /\
    rd_s h' r = sres_set_exp x (rd_s h r).
Proof.
  intros [Hn Hv] He. destruct (at_set_exp_upd x (hs_addr r) h) as (h' & E & U).
  exists h'. unfold hs_set_exp. rewrite (bind_done _ _ _ _ _ E). split; [reflexivity|].
  split; [|split; [apply U|]].
  - apply (upds_extends _ _ _ _ _ U); auto. intros a Ha. apply Hv; auto.
  - apply rd_s_upd_exp; auto.
Qed.
Lemma hs_prepend_ok A x b (r : hsres A) (h0 h : heap) : fresh_objects h0 h (s_addrs r) -> extends h0 h ->
  exists h', hs_prepend x b r h = (h', Ret r) /\ extends h0 h' /\ h_next h' = h_next h /\
    rd_s h' r = sres_prepend x b (rd_s h r).
Proof.
  intros [Hn Hv] He. destruct (at_prepend_upd x b (hs_addr r) h) as (h' & E & U).
  exists h'. unfold hs_prepend. rewrite (bind_done _ _ _ _ _ E). split; [reflexivity|].
  split; [|split; [apply U|]].
  - apply (upds_extends _ _ _ _ _ U); auto. intros a Ha. apply Hv; auto.
  - apply rd_s_upd_prep; auto.
Qed.
Lemma h_prio_ok A (r : hrec A) (h0 h : heap) : fresh_objects h0 h (addrs (HRRec r)) -> extends h0 h ->
  exists h', iterH h_rep_set_prio (hc_reps r) h = (h', Ret tt) /\ extends h0 h' /\ h_next h' = h_next h /\
    rd_rec h' r = Recd (map rep_set_prio (rc_reps (rd_rec h r))) (rc_min (rd_rec h r)) (rc_loc (rd_rec h r))
                     (rc_exp (rd_rec h r)) (rc_con (rd_rec h r)).
Proof.
  intros [Hn Hv] He.
  assert (Hn' : NoDup (flat_map rep_addrs (hc_reps r))) by (inversion Hn; auto).
  destruct (iter_upds _ _ (heads (hc_reps r)) h set_prio_upd) as (h' & E & U).
  { apply NoDup_addrs in Hn'. tauto. }
  exists h'. unfold heads in E. rewrite iter_map in E. split; [exact E|]. split; [|split; [apply U|]].
  + apply (upds_extends _ _ _ _ _ U); auto. intros a Ha. apply Hv. right. apply in_addrs. auto.
  + unfold rd_rec. simpl.
    rewrite (reps_upd_heads f_prio rep_set_prio h h'); auto.
    * destruct U as (N & U & O). rewrite (O (hc_addr r)); auto. intros K. inversion Hn; subst.
      apply H1. apply in_addrs. auto.
    * intros p Hp Ho. unfold rd_rep, rep_set_prio. simpl. rewrite Hp, Ho. auto.
Qed.
End Basics.
