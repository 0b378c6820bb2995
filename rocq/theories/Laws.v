(** Algebra of the result operations and of the combinator functions. *)
From Verif Require Export Lim.

(** *** monotonicity of the combinators in their arguments *)
Section Lef.
Context {T : Type}.

Ltac go :=
  repeat (first
    [ apply lef_refl
    | apply lef_nofuel
    | solve [auto]
    | apply lef_bind; [|intros]
    | match goal with |- lef (match ?x with _ => _ end) (match ?x with _ => _ end) =>
        destruct x end
    | match goal with |- lef (if ?x then _ else _) (if ?x then _ else _) =>
        destruct x end
    | apply lef_flat_mapM; intros ]).

Definition lefast {A} (p q : pfast T A) : Prop := forall s pos c, lef (p s pos c) (q s pos c).
Definition lefull {A} (p q : pfull T A) : Prop :=
  forall s pos c ins rem, lef (p s pos c ins rem) (q s pos c ins rem).

Lemma lefast_refl {A} (p : pfast T A) : lefast p p.
Proof. intros s pos c. apply lef_refl. Qed.
Lemma lefull_refl {A} (p : pfull T A) : lefull p p.
Proof. intros s pos c ins rem. apply lef_refl. Qed.
Lemma lef_trans {A} (x y z : out A) : lef x y -> lef y z -> lef x z.
Proof. intros [->| ->]; auto with lef. Qed.
Lemma lefull_trans {A} (p q r : pfull T A) : lefull p q -> lefull q r -> lefull p r.
Proof. intros H K s pos c ins rem. eapply lef_trans; [apply H|apply K]. Qed.
Lemma lefast_trans {A} (p q r : pfast T A) : lefast p q -> lefast q r -> lefast p r.
Proof. intros H K s pos c. eapply lef_trans; [apply H|apply K]. Qed.

Lemma lefast_fmap {A B} (p p' : pfast T A) (f : A -> out B) :
  lefast p p' -> lefast (fmap_fast p f) (fmap_fast p' f).
Proof. intros H s pos c. unfold fmap_fast. go. Qed.
Lemma lefull_fmap {A B} (p p' : pfull T A) (f : A -> out B) :
  lefull p p' -> lefull (fmap_full p f) (fmap_full p' f).
Proof. intros H s pos c ins rem. unfold fmap_full. go. Qed.
Lemma lefast_bind {A B} (p p' : pfast T A) (f f' : A -> pfast T B) :
  lefast p p' -> (forall v, lefast (f v) (f' v)) -> lefast (bind_fast p f) (bind_fast p' f').
Proof. intros H K s pos c. unfold bind_fast. go. apply K. Qed.
Lemma lefull_bind {A B} (p p' : pfull T A) (f f' : A -> pfull T B) :
  lefull p p' -> (forall v, lefull (f v) (f' v)) -> lefull (bind_full p f) (bind_full p' f').
Proof.
  intros H K s pos c ins rem. unfold bind_full. go; try apply K; apply lef_continue_parse; intros; apply K.
Qed.
Lemma lefast_seq {A B C} (p p' : pfast T A) (q q' : pfast T B) (merge : A -> B -> C) :
  lefast p p' -> lefast q q' -> lefast (seq_fast p q merge) (seq_fast p' q' merge).
Proof. intros H K s pos c. unfold seq_fast. cbv zeta. go. Qed.
Lemma lefull_seq {A B C} (p p' : pfull T A) (q q' : pfull T B) (merge : A -> B -> C) :
  lefull p p' -> lefull q q' -> lefull (seq_full p q merge) (seq_full p' q' merge).
Proof.
  intros H K s pos c ins rem. unfold seq_full. cbv zeta. go;
  apply lef_continue_parse; intros; apply K.
Qed.
Lemma lefast_alt {A} (p p' q q' : pfast T A) :
  lefast p p' -> lefast q q' -> lefast (alt_fast p q) (alt_fast p' q').
Proof. intros H K s pos c. unfold alt_fast. go. Qed.
Lemma lefull_alt {A} (p p' q q' : pfull T A) :
  lefull p p' -> lefull q q' -> lefull (alt_full p q) (alt_full p' q').
Proof. intros H K s pos c ins rem. unfold alt_full, alt_recover. cbv zeta. go. Qed.
End Lef.

(** *** small algebra *)
Section Algebra.
Context {T : Type}.

Lemma map_id_in {X} (f : X -> X) l : (forall x, f x = x) -> map f l = l.
Proof. intros H. induction l; simpl; congruence. Qed.

Lemma opitem_eta o : OpItem (op_op o) (op_loc o) (op_exp o) (op_con o) = o.
Proof. destruct o; reflexivity. Qed.
Lemma copy_ops l :
  map (fun i => OpItem (op_op i) (op_loc i) (op_exp i) (op_con i)) l = l.
Proof. apply map_id_in. apply opitem_eta. Qed.

Lemma ops_prepend_nil ops : ops_prepend_expected ops [] false = ops.
Proof.
  apply map_id_in. intros [o l e []]; reflexivity.
Qed.
Lemma ok_prepend_nil {A} (o : okr T A) : ok_prepend [] false o = o.
Proof. destruct o as [v p c e []]; reflexivity. Qed.
Lemma er_prepend_nil (e : errr) : er_prepend [] false e = e.
Proof. destruct e as [l e []]; reflexivity. Qed.
Lemma rep_prepend_nil {A} (r : repair T A) : rep_prepend [] false r = r.
Proof.
  destruct r as [co pr i ops v p c e []]; unfold rep_prepend; simpl; rewrite ops_prepend_nil; reflexivity.
Qed.
Lemma res_prepend_nil {A} (r : res T A) : res_prepend [] false r = r.
Proof.
  destruct r as [o|e|[reps mn l e []]]; simpl.
  - rewrite ok_prepend_nil. reflexivity.
  - rewrite er_prepend_nil. reflexivity.
  - unfold rec_prepend; simpl. rewrite (map_id_in _ _ rep_prepend_nil). reflexivity.
  - unfold rec_prepend; simpl. rewrite (map_id_in _ _ rep_prepend_nil). reflexivity.
Qed.
Lemma sres_prepend_nil {A} (r : sres T A) : sres_prepend [] false r = r.
Proof.
  destruct r as [o|e]; simpl; [rewrite ok_prepend_nil|rewrite er_prepend_nil]; reflexivity.
Qed.

(** prepending twice *)
Lemma ops_prepend_2 ops x b y b' :
  ops_prepend_expected (ops_prepend_expected ops y b') x b =
  ops_prepend_expected ops (if b' then y else Append x y) (b' || b).
Proof.
  unfold ops_prepend_expected. rewrite map_map. apply map_ext. intros [o l e []]; simpl; auto.
  destruct b'; simpl; auto. unfold Append. rewrite app_assoc. reflexivity.
Qed.
Lemma ok_prepend_2 {A} (o : okr T A) x b y b' :
  ok_prepend x b (ok_prepend y b' o) = ok_prepend (if b' then y else Append x y) (b' || b) o.
Proof.
  destruct o as [v p c e []]; simpl; auto. unfold ok_prepend; simpl.
  destruct b'; simpl; auto. unfold Append. rewrite app_assoc. reflexivity.
Qed.
Lemma er_prepend_2 (o : errr) x b y b' :
  er_prepend x b (er_prepend y b' o) = er_prepend (if b' then y else Append x y) (b' || b) o.
Proof.
  destruct o as [l e []]; simpl; auto. unfold er_prepend; simpl.
  destruct b'; simpl; auto. unfold Append. rewrite app_assoc. reflexivity.
Qed.
Lemma rep_prepend_2 {A} (o : repair T A) x b y b' :
  rep_prepend x b (rep_prepend y b' o) = rep_prepend (if b' then y else Append x y) (b' || b) o.
Proof.
  destruct o as [co pr i ops v p c e []]; unfold rep_prepend; simpl; rewrite ops_prepend_2; auto.
  destruct b'; simpl; auto. unfold Append. rewrite app_assoc. reflexivity.
Qed.
Lemma rec_prepend_2 {A} (o : recr T A) x b y b' :
  rec_prepend x b (rec_prepend y b' o) = rec_prepend (if b' then y else Append x y) (b' || b) o.
Proof.
  destruct o as [reps mn l e []]; unfold rec_prepend; simpl; rewrite map_map.
  - f_equal. apply map_ext. intros. apply rep_prepend_2.
  - destruct b'; simpl.
    + f_equal. apply map_ext. intros. rewrite rep_prepend_2. reflexivity.
    + f_equal; [|unfold Append; rewrite app_assoc; reflexivity].
      apply map_ext. intros. rewrite rep_prepend_2. reflexivity.
Qed.
Lemma res_prepend_2 {A} (r : res T A) x b y b' :
  res_prepend x b (res_prepend y b' r) = res_prepend (if b' then y else Append x y) (b' || b) r.
Proof.
  destruct r; simpl; [rewrite ok_prepend_2|rewrite er_prepend_2|rewrite rec_prepend_2]; reflexivity.
Qed.
Lemma sres_prepend_2 {A} (r : sres T A) x b y b' :
  sres_prepend x b (sres_prepend y b' r) = sres_prepend (if b' then y else Append x y) (b' || b) r.
Proof. destruct r; simpl; [rewrite ok_prepend_2|rewrite er_prepend_2]; reflexivity. Qed.

Lemma obind_assoc {A B C} (m : out A) (f : A -> out B) (g : B -> out C) :
  obind (obind m f) g = obind m (fun x => obind (f x) g).
Proof. destruct m; reflexivity. Qed.
Lemma obind_ret_r {A} (m : out A) : obind m Ret = m.
Proof. destruct m; reflexivity. Qed.
Lemma obind_ext {A B} (m : out A) (f g : A -> out B) :
  (forall x, f x = g x) -> obind m f = obind m g.
Proof. intros H. destruct m; simpl; auto. Qed.
Lemma mapM_ext {A B} (f g : A -> out B) l : (forall x, f x = g x) -> mapM f l = mapM g l.
Proof. intros H. induction l as [|x l IH]; simpl; auto. rewrite H, IH. reflexivity. Qed.
Lemma mapM_ret {A} (f : A -> out A) l : (forall x, f x = Ret x) -> mapM f l = Ret l.
Proof. intros H. induction l as [|x l IH]; simpl; auto. rewrite H, IH. reflexivity. Qed.
Lemma mapM_map {A B} (f : A -> B) l : mapM (fun x => Ret (f x)) l = Ret (map f l).
Proof. induction l as [|x l IH]; simpl; auto. rewrite IH. reflexivity. Qed.
Lemma flat_mapM_ext_in {A B} (f g : A -> out (list B)) l :
  (forall x, In x l -> f x = g x) -> flat_mapM f l = flat_mapM g l.
Proof.
  induction l as [|x l IH]; simpl; intros H; auto. rewrite H, IH; auto.
Qed.
Lemma flat_mapM_one {A B} (f : A -> B) l : flat_mapM (fun x => Ret [f x]) l = Ret (map f l).
Proof. induction l as [|x l IH]; simpl; auto. rewrite IH. reflexivity. Qed.
End Algebra.

(** *** laws of the combinator functions *)
Section FunLaws.
Context {T : Type}.

(** monad laws, left and right unit *)
Lemma bind_fast_pure_l {A B} (x : A) (f : A -> pfast T B) s pos c :
  bind_fast (pure_fast x) f s pos c = f x s pos c.
Proof.
  unfold bind_fast, pure_fast; simpl. destruct (f x s pos c); simpl; auto.
  rewrite sres_prepend_nil. reflexivity.
Qed.
Lemma bind_full_pure_l {A B} (x : A) (f : A -> pfull T B) s pos c ins rem :
  bind_full (pure_full x) f s pos c ins rem = f x s pos c ins rem.
Proof.
  unfold bind_full, pure_full; simpl. destruct (f x s pos c ins rem); simpl; auto.
  rewrite res_prepend_nil. reflexivity.
Qed.
Lemma bind_fast_pure_r {A} (p : pfast T A) s pos c :
  bind_fast p (@pure_fast T A) s pos c = p s pos c.
Proof.
  unfold bind_fast, pure_fast. destruct (p s pos c) as [[[v q c' e []]|e]|e|]; simpl; auto;
    unfold ok_prepend; simpl; unfold Append; rewrite app_nil_r; reflexivity.
Qed.
Lemma cont_ok_pure {A} ins (r : repair T A) :
  cont_ok ins (fun _ v => v) r (Ok (r_val r) (r_pos r) (r_ctx r) [] false) = r.
Proof.
  destruct r as [co pr i ops v p c e b]. unfold cont_ok, append_expected; simpl.
  rewrite Nat.eqb_refl. unfold Append. rewrite app_nil_r, orb_false_r. reflexivity.
Qed.
Lemma bind_full_pure_r {A} (p : pfull T A) s pos c ins rem :
  bind_full p (@pure_full T A) s pos c ins rem = p s pos c ins rem.
Proof.
  unfold bind_full, pure_full. destruct (p s pos c ins rem) as [[[v q c' e []]|e|rc]|e|]; simpl; auto.
  - unfold ok_prepend; simpl; unfold Append; rewrite app_nil_r; reflexivity.
  - unfold ok_prepend; simpl; unfold Append; rewrite app_nil_r; reflexivity.
  - unfold continue_parse, cont_one. simpl.
    rewrite (flat_mapM_ext_in _ (fun r => Ret [r])) by (intros; rewrite cont_ok_pure; reflexivity).
    rewrite (flat_mapM_one (fun r => r)), map_id. simpl. destruct rc; reflexivity.
Qed.

(** functor laws *)
Lemma ok_fmap_ret {A} (o : okr T A) : ok_fmap Ret o = Ret o.
Proof. destruct o; reflexivity. Qed.
Lemma rep_fmap_ret {A} (o : repair T A) : rep_fmap Ret o = Ret o.
Proof. destruct o; reflexivity. Qed.
Lemma res_fmap_id {A} (r : res T A) : res_fmap Ret r = Ret r.
Proof.
  destruct r as [o|e|rc]; simpl; auto.
  - destruct o; reflexivity.
  - unfold rec_fmap. rewrite (mapM_ret _ _ rep_fmap_ret). simpl. destruct rc; reflexivity.
Qed.
Lemma fmap_fast_id {A} (p : pfast T A) s pos c : fmap_fast p Ret s pos c = p s pos c.
Proof.
  unfold fmap_fast. destruct (p s pos c) as [[o|e]|e|]; simpl; auto. destruct o; reflexivity.
Qed.
Lemma fmap_full_id {A} (p : pfull T A) s pos c ins rem : fmap_full p Ret s pos c ins rem = p s pos c ins rem.
Proof.
  unfold fmap_full. destruct (p s pos c ins rem); simpl; auto. apply res_fmap_id.
Qed.
Lemma ok_fmap_2 {A B C} (f : A -> out B) (g : B -> out C) (o : okr T A) :
  (o' <- ok_fmap f o ;; ok_fmap g o') = ok_fmap (fun x => y <- f x ;; g y) o.
Proof. unfold ok_fmap. destruct (f (ok_val o)); simpl; auto. Qed.
Lemma rep_fmap_2 {A B C} (f : A -> out B) (g : B -> out C) (o : repair T A) :
  (o' <- rep_fmap f o ;; rep_fmap g o') = rep_fmap (fun x => y <- f x ;; g y) o.
Proof. unfold rep_fmap. destruct (f (r_val o)); simpl; auto. Qed.
Lemma fmap_fast_2 {A B C} (p : pfast T A) (f : A -> out B) (g : B -> out C) s pos c :
  fmap_fast (fmap_fast p f) g s pos c = fmap_fast p (fun x => y <- f x ;; g y) s pos c.
Proof.
  unfold fmap_fast. destruct (p s pos c) as [[o|e]|e|]; simpl; auto.
  rewrite <- ok_fmap_2. destruct (ok_fmap f o); simpl; auto.
Qed.
(** on lists of repairs the calls are reordered: results agree *)
Lemma mapM_2_ret {A B C} (f : A -> out B) (g : B -> out C) l r :
  (l' <- mapM f l ;; mapM g l') = Ret r <-> mapM (fun x => y <- f x ;; g y) l = Ret r.
Proof.
  revert r. induction l as [|x l IH]; simpl; intros r; [reflexivity|].
  destruct (f x) as [y|e|]; simpl; [|split; discriminate|split; discriminate].
  split; intros H.
  - destruct (mapM f l) as [ys|e|] eqn:Hm; simpl in H; try discriminate.
    destruct (g y) as [z|e|]; simpl in *; try discriminate.
    apply obind_ret in H as [zs [Hz H]]. rewrite (proj1 (IH zs)); auto.
  - destruct (g y) as [z|e|] eqn:Hg; simpl in H; try discriminate.
    apply obind_ret in H as [zs [Hz H]]. apply IH in Hz.
    apply obind_ret in Hz as [ys [Hm Hz]]. rewrite Hm. simpl. rewrite Hg. simpl. rewrite Hz. exact H.
Qed.
Lemma fmap_full_2 {A B C} (p : pfull T A) (f : A -> out B) (g : B -> out C) s pos c ins rem r :
  fmap_full (fmap_full p f) g s pos c ins rem = Ret r <->
  fmap_full p (fun x => y <- f x ;; g y) s pos c ins rem = Ret r.
Proof.
  unfold fmap_full. destruct (p s pos c ins rem) as [[o|e|rc]|e|]; simpl; try tauto.
  - rewrite <- ok_fmap_2. destruct (ok_fmap f o); simpl; tauto.
  - unfold rec_fmap.
    assert (K : forall z,
      (l' <- mapM (rep_fmap f) (rc_reps rc);; mapM (rep_fmap g) l') = Ret z <->
      mapM (rep_fmap (fun x => y <- f x;; g y)) (rc_reps rc) = Ret z).
    { intros z. rewrite mapM_2_ret. rewrite (mapM_ext _ _ _ (rep_fmap_2 f g)). reflexivity. }
    split; intros H.
    + apply obind_ret in H as (x & H & Hx). apply obind_ret in H as (y & H & Hy). injection Hy as <-.
      apply obind_ret in H as (l1 & H & Hl). injection Hl as <-.
      simpl in Hx. apply obind_ret in Hx as (y & Hx & Hy). injection Hy as <-.
      apply obind_ret in Hx as (l2 & H2 & Hx). injection Hx as <-.
      rewrite (proj1 (K l2)); [reflexivity|]. rewrite H. exact H2.
    + apply obind_ret in H as (x & H & Hx). injection Hx as <-.
      apply obind_ret in H as (l2 & H & Hl). injection Hl as <-.
      apply K in H. apply obind_ret in H as (l1 & H1 & H2). rewrite H1.
      cbn [obind res_fmap]. unfold rec_fmap. cbn [rc_reps]. rewrite H2. reflexivity.
Qed.

(** sequencing is bind *)
Lemma seq_fast_bind {A B C} (p : pfast T A) (q : pfast T B) (merge : A -> B -> C) s pos c :
  seq_fast p q merge s pos c =
  bind_fast p (fun x => fmap_fast q (fun y => Ret (merge x y))) s pos c.
Proof.
  unfold seq_fast, bind_fast, fmap_fast. destruct (p s pos c) as [[o|e]|e|]; simpl; auto.
  destruct (q s (ok_pos o) (ok_ctx o)); simpl; auto.
Qed.
Lemma res_fmap_pure {A B} (f : A -> B) (r : res T A) :
  res_fmap (fun y => Ret (f y)) r =
  Ret match r with
      | ROk o => ROk (Ok (f (ok_val o)) (ok_pos o) (ok_ctx o) (ok_exp o) (ok_con o))
      | RErr e => RErr e
      | RRec rc => RRec (Recd (map (fun r => Repair (r_cost r) (r_prio r) (r_ins r) (r_ops r)
           (f (r_val r)) (r_pos r) (r_ctx r) (r_exp r) (r_con r)) (rc_reps rc))
           (rc_min rc) (rc_loc rc) (rc_exp rc) (rc_con rc))
      end.
Proof.
  destruct r as [o|e|rc]; simpl; auto. unfold rec_fmap, rep_fmap. simpl.
  rewrite mapM_map. reflexivity.
Qed.
Lemma seq_full_bind {A B C} (p : pfull T A) (q : pfull T B) (merge : A -> B -> C) s pos c ins rem :
  seq_full p q merge s pos c ins rem =
  bind_full p (fun x => fmap_full q (fun y => Ret (merge x y))) s pos c ins rem.
Proof.
  unfold seq_full, bind_full, fmap_full. destruct (p s pos c ins rem) as [[o|e|rc]|e|]; simpl; auto.
  - destruct (ok_con o); destruct (q s (ok_pos o) (ok_ctx o) ins _); reflexivity.
  - unfold continue_parse. f_equal. apply flat_mapM_ext_in. intros r _. unfold cont_one.
    rewrite obind_assoc. apply obind_ext. intros rb. rewrite res_fmap_pure. simpl.
    destruct rb as [o|e|rb]; simpl; auto.
    f_equal. rewrite map_map. apply map_ext. intros rr. unfold cont_rec, join_ops; simpl. reflexivity.
Qed.

(** maybe *)
Lemma maybe_fast_alt {A} (p : pfast T A) s pos c :
  maybe_fast p s pos c = alt_fast (fmap_fast p (fun v => Ret (Some v))) (pure_fast None) s pos c.
Proof.
  unfold maybe_fast, alt_fast, fmap_fast, pure_fast.
  destruct (p s pos c) as [[o|e]|e|]; simpl; auto.
  destruct (er_con e); auto. unfold ok_set_exp, Append; simpl. rewrite app_nil_r. reflexivity.
Qed.
Lemma rec_fmap_pure {A B} (f : A -> B) (rc : recr T A) :
  rec_fmap (fun y => Ret (f y)) rc =
  Ret (Recd (map (fun r => Repair (r_cost r) (r_prio r) (r_ins r) (r_ops r)
           (f (r_val r)) (r_pos r) (r_ctx r) (r_exp r) (r_con r)) (rc_reps rc))
           (rc_min rc) (rc_loc rc) (rc_exp rc) (rc_con rc)).
Proof. unfold rec_fmap, rep_fmap. simpl. rewrite mapM_map. reflexivity. Qed.
Lemma maybe_full_alt {A} (p : pfull T A) s pos c ins rem :
  maybe_full p s pos c ins rem = alt_full (fmap_full p (fun v => Ret (Some v))) (pure_full None) s pos c ins rem.
Proof.
  unfold maybe_full, alt_full, fmap_full, pure_full.
  destruct (p s pos c ins None) as [[o|[l e b]|rc]|e|]; simpl; auto.
  - destruct b; auto. unfold ok_set_exp, Append; simpl. rewrite app_nil_r. reflexivity.
  - rewrite rec_fmap_pure. simpl. destruct (rc_con rc); auto.
    unfold ok_set_exp, Append; simpl. rewrite app_nil_r. reflexivity.
Qed.
End FunLaws.
