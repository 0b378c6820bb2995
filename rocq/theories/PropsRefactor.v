(** C72: refactorings that keep the meaning of a parser.  [same], [same_ok],
    [yields], [fails], [raises] are in LawSpec.v; with C42 every law can be used
    anywhere inside a parser and inside recursive definitions. *)
From Coq Require Import Lia.
From Verif Require Import PropsMany PropsCongr LawLift Fuel Lim.

Section Fun.
Context {T : Type}.
Lemma mapM_commute {X Y} (f : X -> out Y) (k : X -> X) (k' : Y -> Y) l :
  (forall x, f (k x) = omap k' (f x)) -> mapM f (map k l) = omap (map k') (mapM f l).
Proof.
  intros H. induction l as [|x l IH]; cbn; auto. rewrite H, IH. unfold omap.
  destruct (f x); cbn; auto. destruct (mapM f l); reflexivity.
Qed.
Lemma fmap_set_exp {A B} (f : A -> out B) x (r : res T A) :
  res_fmap f (res_set_exp x r) = omap (res_set_exp x) (res_fmap f r).
Proof.
  destruct r as [[v j c e []]|[l e []]|rc]; cbn; unfold ok_fmap, omap; cbn; auto; try (destruct (f v); reflexivity).
  unfold rec_fmap. cbn. rewrite (mapM_commute (rep_fmap f) (rep_set_exp x) (rep_set_exp x)).
  - unfold omap. destruct (mapM (rep_fmap f) (rc_reps rc)); reflexivity.
  - intros r. unfold rep_fmap, omap. cbn. destruct (f (r_val r)); reflexivity.
Qed.
Lemma fmap_set_ctx {A B} (f : A -> out B) x (r : res T A) :
  res_fmap f (res_set_ctx x r) = omap (res_set_ctx x) (res_fmap f r).
Proof.
  destruct r as [[v j c e b]|[l e b]|rc]; cbn; unfold ok_fmap, omap; cbn; auto; try (destruct (f v); reflexivity).
  unfold rec_fmap. cbn. rewrite (mapM_commute (rep_fmap f) (rep_set_ctx x) (rep_set_ctx x)).
  - unfold omap. destruct (mapM (rep_fmap f) (rc_reps rc)); reflexivity.
  - intros r. unfold rep_fmap, omap. cbn. destruct (f (r_val r)); reflexivity.
Qed.
Lemma sfmap_set_exp {A B} (f : A -> out B) x (r : sres T A) :
  sres_fmap f (sres_set_exp x r) = omap (sres_set_exp x) (sres_fmap f r).
Proof. destruct r as [[v j c e []]|[l e []]]; cbn; unfold ok_fmap, omap; cbn; auto; destruct (f v); reflexivity. Qed.
Lemma sfmap_set_ctx {A B} (f : A -> out B) x (r : sres T A) :
  sres_fmap f (sres_set_ctx x r) = omap (sres_set_ctx x) (sres_fmap f r).
Proof. destruct r as [[v j c e b]|[l e b]]; cbn; unfold ok_fmap, omap; cbn; auto; destruct (f v); reflexivity. Qed.

(** values mapped by a function without exceptions *)
Definition vok {A B} (h : A -> B) (o : okr T A) : okr T B := Ok (h (ok_val o)) (ok_pos o) (ok_ctx o) (ok_exp o) (ok_con o).
Definition vrep {A B} (h : A -> B) (r : repair T A) : repair T B :=
  Repair (r_cost r) (r_prio r) (r_ins r) (r_ops r) (h (r_val r)) (r_pos r) (r_ctx r) (r_exp r) (r_con r).
Definition vrec {A B} (h : A -> B) (r : recr T A) : recr T B := Recd (map (vrep h) (rc_reps r)) (rc_min r) (rc_loc r) (rc_exp r) (rc_con r).
Definition vres {A B} (h : A -> B) (r : res T A) : res T B :=
  match r with ROk o => ROk (vok h o) | RErr e => RErr e | RRec r => RRec (vrec h r) end.
Definition vsres {A B} (h : A -> B) (r : sres T A) : sres T B := match r with SOk o => SOk (vok h o) | SErr e => SErr e end.
Lemma fmap_vsres {A B} (h : A -> B) (p : pfast T A) s pos c : fmap_fast p (fun v => Ret (h v)) s pos c = omap (vsres h) (p s pos c).
Proof. unfold fmap_fast, omap. destruct (p s pos c) as [[o|e]|e|]; reflexivity. Qed.
Lemma fmap_vres {A B} (h : A -> B) (p : pfull T A) s pos c ins rem :
  fmap_full p (fun v => Ret (h v)) s pos c ins rem = omap (vres h) (p s pos c ins rem).
Proof. unfold fmap_full, omap. destruct (p s pos c ins rem) as [r|e|]; cbn [obind]; auto. rewrite res_fmap_pure. destruct r; reflexivity. Qed.
Lemma vrec_set_exp {A B} (h : A -> B) x (r : recr T A) : rec_set_exp x (vrec h r) = vrec h (rec_set_exp x r).
Proof. unfold rec_set_exp, vrec. cbn. rewrite !map_map. reflexivity. Qed.
Lemma vres_prepend {A B} (h : A -> B) x b (r : res T A) : res_prepend x b (vres h r) = vres h (res_prepend x b r).
Proof.
  destruct r as [[v j c e []]|e|rc]; try reflexivity. cbn. unfold rec_prepend, vrec. cbn. rewrite !map_map. reflexivity.
Qed.
Lemma vsres_prepend {A B} (h : A -> B) x b (r : sres T A) : sres_prepend x b (vsres h r) = vsres h (sres_prepend x b r).
Proof. destruct r as [[v j c e []]|e]; reflexivity. Qed.
Lemma vrec_join {A B} (h : A -> B) (a b : recr T A) : join_repairs (vrec h a) (vrec h b) = vrec h (join_repairs a b).
Proof.
  assert (F : forall f l, filter (fun r => f (r_prio r)) (map (vrep h) l) = map (vrep h) (filter (fun r => f (r_prio r)) l)).
  { intros f l. induction l as [|r l IH]; cbn [map filter]; auto. cbn [vrep r_prio]. rewrite IH. destruct (f (r_prio r)); reflexivity. }
  unfold join_repairs, vrec. cbn.
  destruct (rc_min a) as [mp|].
  - rewrite (F (fun q => match q with Some p => Nat.ltb p mp | None => false end)), <- map_app.
    destruct (rc_con a); [reflexivity|]. destruct (rc_con b); reflexivity.
  - rewrite (F (fun q => match q with Some p => true | None => false end)), <- map_app.
    destruct (rc_con a); [reflexivity|]. destruct (rc_con b); reflexivity.
Qed.
Lemma flat_mapM_map {X Y Z} (f : Y -> out (list Z)) (k : X -> Y) l : flat_mapM f (map k l) = flat_mapM (fun x => f (k x)) l.
Proof. induction l as [|x l IH]; cbn; auto. rewrite IH. reflexivity. Qed.
Lemma cont_vmap {A A' B B' C C'} (h : A -> A') (k : B -> B') (m : C -> C') ra ins f f' merge merge' :
  (forall a p c r, f' (h a) p c r = omap (vres k) (f a p c r)) -> (forall a b, merge' (h a) (k b) = m (merge a b)) ->
  continue_parse (vrec h ra) ins f' merge' = omap (vres m) (continue_parse (T := T) ra ins f merge).
Proof.
  intros Hf Hm. unfold continue_parse. cbn [vrec rc_reps rc_min rc_loc rc_exp rc_con]. rewrite flat_mapM_map.
  assert (K : forall r, cont_one ins f' merge' (vrep h r) = omap (map (vrep m)) (cont_one ins f merge r)).
  { intros r. unfold cont_one. cbn [vrep r_val r_pos r_ctx r_ins]. rewrite Hf. unfold omap.
    destruct (f (r_val r) (r_pos r) (r_ctx r) (r_ins r)) as [[o|e|rb]|e|]; cbn; auto.
    - unfold cont_ok, vrep. cbn. rewrite Hm. reflexivity.
    - rewrite !map_map. f_equal. apply map_ext. intros rr. unfold cont_rec, vrep. cbn. rewrite Hm. reflexivity. }
  replace (flat_mapM (fun x => cont_one ins f' merge' (vrep h x)) (rc_reps ra))
    with (omap (map (vrep m)) (flat_mapM (cont_one ins f merge) (rc_reps ra))).
  - unfold omap. destruct (flat_mapM (cont_one ins f merge) (rc_reps ra)); reflexivity.
  - rewrite <- flat_mapM_omap. apply flat_mapM_ext_in. intros r _. symmetry. apply K.
Qed.
Lemma many_vfast {A B} (h : A -> B) (p : pfast T A) n s : forall con v pos c,
  many_fast (fmap_fast p (fun v => Ret (h v))) n con (map h v) s pos c = omap (vsres (map h)) (many_fast p n con v s pos c).
Proof.
  induction n as [|n IH]; intros con v pos c; [reflexivity|]. cbn [many_fast]. rewrite fmap_vsres. unfold omap at 1.
  destruct (p s pos c) as [[o|e]|e|]; cbn [obind vsres vok ok_con ok_val ok_pos ok_ctx]; auto.
  - destruct (ok_con o); [|reflexivity]. rewrite <- IH, map_app. reflexivity.
  - destruct (er_con e); reflexivity.
Qed.
Lemma many_vfull {A B} (h : A -> B) (p : pfull T A) n s : forall con v pos c ins,
  many_full (fmap_full p (fun v => Ret (h v))) n con (map h v) s pos c ins = omap (vres (map h)) (many_full p n con v s pos c ins).
Proof.
  induction n as [|n IH]; intros con v pos c ins; [reflexivity|]. cbn [many_full]. rewrite fmap_vres. unfold omap at 1.
  destruct (p s pos c ins None) as [[o|e|rc]|e|]; cbn [obind vres vok ok_con ok_val ok_pos ok_ctx]; auto.
  - destruct (ok_con o); [|reflexivity]. rewrite <- IH, map_app. reflexivity.
  - destruct (er_con e); reflexivity.
  - apply cont_vmap with (k := map h).
    + intros a p' c' r. apply (IH false []).
    + intros a b. rewrite map_app. reflexivity.
Qed.
Lemma vrep_id {A} (r : repair T A) : vrep (fun v => v) r = r.
Proof. destruct r; reflexivity. Qed.
Lemma vres_id {A} (o : out (res T A)) : omap (vres (fun v => v)) o = o.
Proof.
  unfold omap. destruct o as [[o|e|rc]|e|]; cbn; auto.
  - destruct o; reflexivity.
  - destruct rc as [reps mn l x b]. unfold vrec. cbn. do 3 f_equal. erewrite map_ext; [apply map_id|]. intros r. apply vrep_id.
Qed.
End Fun.

Section Refactor.
Context {T : Type} {V : nat -> Type}.
Variable E : env T V.
Notation gram := (gram T V).

(** both sides run [p] with the same fuel *)
Lemma same_two {A} (g h : gram A) :
  (forall n s pos c, fast E (S (S n)) g s pos c = fast E (S (S n)) h s pos c) ->
  (forall n s pos c ins rem, full E (S (S n)) g s pos c ins rem = full E (S (S n)) h s pos c ins rem) ->
  same E g h.
Proof.
  intros F G. apply same_of_lef; intros n; exists (S (S n)); intros.
  - rewrite <- F. apply fast_lef; lia.
  - rewrite F. apply fast_lef; lia.
  - rewrite <- G. apply full_lef; lia.
  - rewrite G. apply full_lef; lia.
Qed.
Lemma obind_map {A B C} (f : A -> out B) (k : A -> A) (k' : B -> C) m (g : A -> out C) :
  (forall a, g a = omap k' (f a)) -> obind m g = obind (obind m f) (fun b => Ret (k' b)).
Proof. intros H. destruct m; cbn; auto. rewrite H. reflexivity. Qed.

(** ** A function applied inside or outside *)
Theorem C72_fmap_label A B (p : gram A) (f : A -> out B) x : same E (GFmap (GLabel p x) f) (GLabel (GFmap p f) x).
Proof.
  apply same_two; intros; cbn [fast full]; unfold fmap_fast, fmap_full, label_fast, label_full.
  - destruct (fast E n p s pos c) as [r|e|]; cbn [obind]; auto. rewrite sfmap_set_exp. reflexivity.
  - destruct (full E n p s pos c ins rem) as [r|e|]; cbn [obind]; auto. rewrite fmap_set_exp. reflexivity.
Qed.
Theorem C72_fmap_attempt A B (p : gram A) (f : A -> out B) : same E (GFmap (GAttempt p) f) (GAttempt (GFmap p f)).
Proof.
  apply same_two; intros; cbn [fast full]; unfold fmap_fast, fmap_full, attempt_fast, attempt_full.
  - destruct (fast E n p s pos c) as [[o|e]|e|]; cbn; auto. destruct (ok_fmap f o); reflexivity.
  - destruct rem; [reflexivity|]. cbn [fast]. unfold fmap_fast.
    destruct (fast E n p s pos c) as [[o|e]|e|]; cbn; auto. destruct (ok_fmap f o); reflexivity.
Qed.
Theorem C72_fmap_recover A B (p : gram A) (f : A -> out B) : same E (GFmap (GRecover p) f) (GRecover (GFmap p f)).
Proof.
  apply same_two; intros; cbn [fast full]; unfold fmap_full, recover_full; auto.
  destruct (full E n p s pos c ins rem) as [[o|e|rc]|e|]; cbn; auto.
  - destruct (ok_fmap f o); reflexivity.
  - unfold rec_fmap. cbn. rewrite (mapM_commute (rep_fmap f) rep_set_prio rep_set_prio).
    + unfold omap. destruct (mapM (rep_fmap f) (rc_reps rc)); reflexivity.
    + intros r. unfold rep_fmap, omap. cbn. destruct (f (r_val r)); reflexivity.
Qed.
Theorem C72_fmap_layout A B (p : gram A) (f : A -> out B) d :
  same E (GFmap (GBlock p) f) (GBlock (GFmap p f)) /\ same E (GFmap (GAligned p) f) (GAligned (GFmap p f)) /\
  same E (GFmap (GIndented d p) f) (GIndented d (GFmap p f)).
Proof.
  split; [|split]; apply same_two; intros; cbn [fast full]; unfold fmap_fast, fmap_full, block_fast, block_full, aligned_fast, aligned_full, indented_fast, indented_full.
  - destruct (fast E n p _ _ _) as [r|e|]; cbn [obind]; auto. rewrite sfmap_set_ctx. reflexivity.
  - destruct (full E n p _ _ _ _ _) as [r|e|]; cbn [obind]; auto. rewrite fmap_set_ctx. reflexivity.
  - destruct (Z.eqb _ _); reflexivity.
  - destruct (Z.eqb _ _); reflexivity.
  - destruct (Z.eqb _ _); cbn [obind]; auto. destruct (fast E n p _ _ _) as [r|e|]; cbn [obind]; auto. rewrite sfmap_set_ctx. reflexivity.
  - destruct (Z.eqb _ _); cbn [obind]; auto. destruct (full E n p _ _ _ _ _) as [r|e|]; cbn [obind]; auto. rewrite fmap_set_ctx. reflexivity.
Qed.

(** one side runs [p] with one unit of fuel less *)
Lemma same_diff {A} (g h : gram A) :
  (forall n s pos c, fast E (S (S n)) g s pos c = fast E (S n) h s pos c) ->
  (forall n s pos c ins rem, full E (S (S n)) g s pos c ins rem = full E (S n) h s pos c ins rem) ->
  same E g h.
Proof.
  intros F G. apply same_of_lef; intros n.
  - exists (S n). intros. rewrite <- F. apply fast_lef; lia.
  - exists (S (S n)). intros. rewrite F. apply fast_lef; lia.
  - exists (S n). intros. rewrite <- G. apply full_lef; lia.
  - exists (S (S n)). intros. rewrite G. apply full_lef; lia.
Qed.
Theorem C72_fmap_alt A B (p q : gram A) (h : A -> B) :
  same E (GFmap (GAlt p q) (fun v => Ret (h v))) (GAlt (GFmap p (fun v => Ret (h v))) (GFmap q (fun v => Ret (h v)))).
Proof.
  apply same_two; intros; cbn [fast full].
  - rewrite fmap_vsres. unfold alt_fast. rewrite !fmap_vsres. unfold omap.
    destruct (fast E n p s pos c) as [[o|e]|e|]; cbn; auto. destruct (er_con e) eqn:He; cbn; rewrite ?He; auto.
    destruct (fast E n q s pos c) as [[o2|e2]|e2|]; cbn; auto.
    + destruct (ok_con o2) eqn:Ho; cbn; auto. unfold ok_set_exp. cbn. rewrite Ho. reflexivity.
    + destruct (er_con e2); reflexivity.
  - rewrite fmap_vres. unfold alt_full. rewrite !fmap_vres. unfold omap.
    assert (K : forall la x, alt_recover (fmap_full (full E n p) (fun v => Ret (h v))) (fmap_full (full E n q) (fun v => Ret (h v))) la x s pos c ins rem
      = omap (vres h) (alt_recover (full E n p) (full E n q) la x s pos c ins rem)).
    { intros la x. unfold alt_recover. destruct rem as [m|]; [|reflexivity]. rewrite !fmap_vres. unfold omap.
      destruct (full E n p s pos c ins (Some m)) as [[o|e|a]|e|]; cbn [obind vres]; auto;
        destruct (full E n q s pos c ins (Some m)) as [[o2|e2|b]|e2|]; cbn [obind vres]; auto;
        rewrite ?vrec_join, vrec_set_exp; reflexivity. }
    unfold omap in K.
    destruct (full E n p s pos c ins None) as [[o|[l x []]|[rs mn l x []]]|e|]; cbn [obind vres vrec rc_reps rc_min rc_loc rc_exp rc_con]; auto;
      (destruct (full E n q s pos c ins None) as [[o2|e2|rc2]|e2|]; cbn [obind vres res_con vok ok_con vrec rc_con res_exp ok_exp rc_exp]; auto;
       [destruct (ok_con o2) eqn:Ho; cbn; auto; unfold ok_set_exp; cbn; rewrite Ho; reflexivity
       |destruct (er_con e2); cbn [obind vres]; auto
       |destruct (rc_con rc2); cbn [obind vres]; auto]).
Qed.
Theorem C72_seq_fmap A A' B B' C (p : gram A) (q : gram B) (h : A -> A') (k : B -> B') (merge : A' -> B' -> C) :
  same E (GSeq (GFmap p (fun v => Ret (h v))) (GFmap q (fun v => Ret (k v))) merge) (GSeq p q (fun a b => merge (h a) (k b))).
Proof.
  apply same_diff; intros; cbn [fast full].
  - unfold seq_fast. rewrite fmap_vsres. unfold omap. destruct (fast E n p s pos c) as [[o|e]|e|]; cbn [obind vsres]; auto.
    rewrite fmap_vsres. cbn [vok ok_pos ok_ctx ok_val ok_exp ok_con]. unfold omap.
    destruct (fast E n q s (ok_pos o) (ok_ctx o)) as [[o2|e2]|e2|]; reflexivity.
  - unfold seq_full. rewrite fmap_vres. unfold omap. destruct (full E n p s pos c ins rem) as [[o|e|rc]|e|]; cbn [obind vres]; auto.
    + rewrite fmap_vres. cbn [vok ok_pos ok_ctx ok_val ok_exp ok_con]. unfold omap.
      destruct (full E n q s (ok_pos o) (ok_ctx o) ins _) as [[o2|e2|rc2]|e2|]; cbn [obind vres]; auto.
      rewrite !res_fmap_pure. cbn [obind vrec rc_reps]. do 3 f_equal. cbn. rewrite map_map. reflexivity.
    + rewrite (cont_vmap h k (fun v => v) rc ins (fun _ p0 c0 r => full E n q s p0 c0 ins (Some r)) _ (fun a b => merge (h a) (k b))).
      * unfold omap. destruct (continue_parse _ _ _ _) as [[o|e|rc']|e|]; cbn; auto.
        -- destruct o; reflexivity.
        -- destruct rc' as [reps mn l x b]. unfold vrec. cbn. do 3 f_equal. erewrite map_ext; [apply map_id|]. intros [? ? ? ? ? ? ? ? ?]; reflexivity.
      * intros. apply fmap_vres.
      * reflexivity.
Qed.
Theorem C72_bind_fmap A B C (p : gram A) (h : A -> B) (f : B -> gram C) :
  same E (GBind (GFmap p (fun v => Ret (h v))) f) (GBind p (fun v => f (h v))).
Proof.
  assert (F : forall n s pos c, bind_fast (fast E (S n) (GFmap p (fun v => Ret (h v)))) (fun v => fast E (S n) (f v)) s pos c =
    bind_fast (fast E n p) (fun v => fast E (S n) (f (h v))) s pos c).
  { intros. cbn [fast]. unfold bind_fast. rewrite fmap_vsres. unfold omap. destruct (fast E n p s pos c) as [[o|e]|e|]; reflexivity. }
  assert (G : forall n s pos c ins rem, bind_full (full E (S n) (GFmap p (fun v => Ret (h v)))) (fun v => full E (S n) (f v)) s pos c ins rem =
    bind_full (full E n p) (fun v => full E (S n) (f (h v))) s pos c ins rem).
  { intros. cbn [full]. unfold bind_full. rewrite fmap_vres. unfold omap. destruct (full E n p s pos c ins rem) as [[o|e|rc]|e|]; try reflexivity.
    cbn [obind vres]. rewrite (cont_vmap h (fun v => v) (fun v => v) rc ins (fun v p0 c0 r => full E (S n) (f (h v)) s p0 c0 ins (Some r)) _ (fun _ v => v)).
    - apply vres_id.
    - intros. symmetry. apply vres_id.
    - reflexivity. }
  apply same_of_lef; intros n.
  - exists (S (S n)). intros. eapply lef_trans; [apply (fast_lef E n (S (S n))); lia|].
    change (lef (bind_fast (fast E (S n) (GFmap p (fun v => Ret (h v)))) (fun v => fast E (S n) (f v)) s pos c)
      (bind_fast (fast E (S n) p) (fun v => fast E (S n) (f (h v))) s pos c)).
    rewrite F. apply lefast_bind; [intros ? ? ?; apply fast_lef; lia|intros ? ? ? ?; apply fast_lef; lia].
  - exists (S (S n)). intros. eapply lef_trans; [apply (fast_lef E n (S n)); lia|].
    change (lef (bind_fast (fast E n p) (fun v => fast E n (f (h v))) s pos c)
      (bind_fast (fast E (S n) (GFmap p (fun v => Ret (h v)))) (fun v => fast E (S n) (f v)) s pos c)).
    rewrite F. apply lefast_bind; [intros ? ? ?; apply fast_lef; lia|intros ? ? ? ?; apply fast_lef; lia].
  - exists (S (S n)). intros. eapply lef_trans; [apply (full_lef E n (S (S n))); lia|].
    change (lef (bind_full (full E (S n) (GFmap p (fun v => Ret (h v)))) (fun v => full E (S n) (f v)) s pos c ins rem)
      (bind_full (full E (S n) p) (fun v => full E (S n) (f (h v))) s pos c ins rem)).
    rewrite G. apply lefull_bind; [intros ? ? ? ? ?; apply full_lef; lia|intros ? ? ? ? ? ?; apply full_lef; lia].
  - exists (S (S n)). intros. eapply lef_trans; [apply (full_lef E n (S n)); lia|].
    change (lef (bind_full (full E n p) (fun v => full E n (f (h v))) s pos c ins rem)
      (bind_full (full E (S n) (GFmap p (fun v => Ret (h v)))) (fun v => full E (S n) (f v)) s pos c ins rem)).
    rewrite G. apply lefull_bind; [intros ? ? ? ? ?; apply full_lef; lia|intros ? ? ? ? ? ?; apply full_lef; lia].
Qed.
Theorem C72_fmap_many A B (p : gram A) (h : A -> B) :
  same E (GFmap (GMany p) (fun l => Ret (map h l))) (GMany (GFmap p (fun v => Ret (h v)))).
Proof.
  assert (L : forall n s pos c, fast E (S (S n)) (GMany (GFmap p (fun v => Ret (h v)))) s pos c =
    omap (vsres (map h)) (many_fast (fast E n p) (S n) false [] s pos c))
    by (intros; exact (many_vfast h (fast E n p) (S n) s false [] pos c)).
  assert (R : forall n s pos c, fast E (S (S n)) (GFmap (GMany p) (fun l => Ret (map h l))) s pos c =
    omap (vsres (map h)) (many_fast (fast E n p) n false [] s pos c))
    by (intros; exact (fmap_vsres (map h) (fast E (S n) (GMany p)) s pos c)).
  assert (L' : forall n s pos c ins rem, full E (S (S n)) (GMany (GFmap p (fun v => Ret (h v)))) s pos c ins rem =
    omap (vres (map h)) (many_full (full E n p) (S n) false [] s pos c ins))
    by (intros; exact (many_vfull h (full E n p) (S n) s false [] pos c ins)).
  assert (R' : forall n s pos c ins rem, full E (S (S n)) (GFmap (GMany p) (fun l => Ret (map h l))) s pos c ins rem =
    omap (vres (map h)) (many_full (full E n p) n false [] s pos c ins))
    by (intros; exact (fmap_vres (map h) (full E (S n) (GMany p)) s pos c ins rem)).
  apply same_of_lef; intros n.
  - exists (S (S n)). intros. eapply lef_trans; [apply (fast_lef E n (S (S n))); lia|]. rewrite L, R.
    apply lef_bind; [|intros; apply lef_refl]. apply lef_many_fast; [intros; apply lef_refl|lia].
  - exists (S (S (S n))). intros. eapply lef_trans; [apply (fast_lef E n (S (S n))); lia|]. rewrite L, R.
    apply lef_bind; [|intros; apply lef_refl]. apply lef_many_fast; [intros; apply fast_lef; lia|lia].
  - exists (S (S n)). intros. eapply lef_trans; [apply (full_lef E n (S (S n))); lia|]. rewrite L', R'.
    apply lef_bind; [|intros; apply lef_refl]. apply lef_many_full; [intros; apply lef_refl|lia].
  - exists (S (S (S n))). intros. eapply lef_trans; [apply (full_lef E n (S (S n))); lia|]. rewrite L', R'.
    apply lef_bind; [|intros; apply lef_refl]. apply lef_many_full; [intros; apply full_lef; lia|lia].
Qed.
Theorem C72_fmap_maybe A B (p : gram A) (h : A -> B) :
  same E (GFmap (GMaybe p) (fun o => Ret (option_map h o))) (GMaybe (GFmap p (fun v => Ret (h v)))).
Proof.
  apply same_two; intros; cbn [fast full].
  - rewrite fmap_vsres. unfold maybe_fast. rewrite fmap_vsres. unfold omap.
    destruct (fast E n p s pos c) as [[o|e]|e|]; cbn; auto. destruct (er_con e); reflexivity.
  - rewrite fmap_vres. unfold maybe_full. rewrite fmap_vres. unfold omap.
    destruct (full E n p s pos c ins None) as [[o|e|rc]|e|]; cbn [obind vres]; auto.
    + destruct (er_con e) eqn:He; cbn; rewrite ?He; reflexivity.
    + cbn [vrec rc_con]. destruct (rc_con rc) eqn:Hc; cbn; rewrite ?Hc; auto.
      unfold rec_fmap, rep_fmap. cbn. rewrite !mapM_map. cbn. unfold vrec. cbn. rewrite !map_map. reflexivity.
Qed.
Theorem C72_fmap_recover_with A B (p : gram A) (h : A -> B) x l :
  same E (GFmap (GRecoverWith p x l) (fun v => Ret (h v))) (GRecoverWith (GFmap p (fun v => Ret (h v))) (h x) l).
Proof.
  apply same_two; intros; cbn [fast full]; auto.
  rewrite fmap_vres. unfold recover_with_full. rewrite !fmap_vres. destruct rem as [m|]; [|reflexivity]. unfold omap. rewrite !fmap_vres. unfold omap.
  destruct (full E n p s pos c ins (Some m)) as [[o|e|rc]|e|]; cbn [obind vres res_con]; auto.
  - destruct (er_con e); cbn; auto. destruct (Z.eqb m 0); reflexivity.
  - cbn [vrec rc_con]. destruct (rc_con rc) eqn:Hc; cbn [obind vres vrec]; rewrite ?Hc; auto. destruct (Z.eqb m 0); cbn; rewrite ?Hc; reflexivity.
Qed.

(** ** Sequences *)
Theorem C72_pure_left A B C (x : A) (q : gram B) (merge : A -> B -> C) :
  same E (GSeq (GPure x) q merge) (GFmap q (fun v => Ret (merge x v))).
Proof. eapply same_trans; [apply C18_seq_is_bind|]. apply (C17_left_unit E A C x (fun x => GFmap q (fun y => Ret (merge x y)))). Qed.
Theorem C72_pure_right A B C (p : gram A) (y : B) (merge : A -> B -> C) :
  same E (GSeq p (GPure y) merge) (GFmap p (fun v => Ret (merge v y))).
Proof.
  eapply same_laws.
  - apply bf_seq; [apply bf_self|apply bf_pure].
  - apply bF_seq; [apply bF_self|apply bF_pure].
  - apply bf_fmap, bf_self.
  - apply bF_fmap, bF_self.
  - intros n s pos c _. apply outeq_eq. unfold seq_fast, fmap_fast. destruct (fast E n p s pos c) as [[[v j c' x b]|e]|e|]; cbn; auto.
    destruct b; rewrite ?app_nil_r; reflexivity.
  - intros n s pos c ins rem _. apply outeq_eq. rewrite seq_full_bind.
    rewrite <- (bind_full_pure_r (fmap_full (full E n p) (fun v => Ret (merge v y)))). unfold bind_full. rewrite fmap_vres. unfold omap.
    destruct (full E n p s pos c ins rem) as [[o|e|rc]|e|]; cbn [obind vres]; auto.
    rewrite (cont_vmap (fun v => merge v y) (fun v => v) (fun v => v) rc ins
      (fun v p0 c0 r => fmap_full (pure_full y) (fun z => Ret (merge v z)) s p0 c0 ins (Some r)) _ (fun _ v => v)).
    + symmetry. apply vres_id.
    + intros. reflexivity.
    + reflexivity.
Qed.
Theorem C72_seq_assoc A B C D F (p : gram A) (q : gram B) (r : gram C) (f : A -> B -> D) (g : D -> C -> F) :
  wf_env E -> wf p -> wf q -> wf r ->
  same_ok E (GSeq (GSeq p q f) r g) (GSeq p (GSeq q r (fun b c => (b, c))) (fun a bc => g (f a (fst bc)) (snd bc))).
Proof.
  intros WE Wp Wq Wr.
  eapply same_trans; [eapply same_weaken; apply C18_seq_is_bind|].
  eapply same_trans.
  { apply C42_replace_components with (g' := GBind (GBind p (fun a => GFmap q (fun b => Ret (f a b)))) (fun d => GFmap r (fun c => Ret (g d c)))); auto.
    1-2: unfold wf in *; cbn [gall wf_node]; auto 10.
    apply rb_alike. constructor; [|intros v; apply rebuilt_refl]. apply rb_law. eapply same_weaken. apply C18_seq_is_bind. }
  eapply same_trans; [apply C17_assoc; unfold wf in *; cbn [gall wf_node]; auto|].
  apply same_sym.
  eapply same_trans; [eapply same_weaken; apply C18_seq_is_bind|].
  apply C42_replace_components; auto.
  1-2: unfold wf in *; cbn [gall wf_node]; auto 10.
  apply rb_alike. constructor; [apply rebuilt_refl|intros a].
  apply rb_law. eapply same_weaken. apply same_sym.
  eapply same_trans; [apply C72_bind_fmap|]. cbn.
  eapply same_trans; [apply same_sym, (C18_seq_is_bind E _ _ _ q r (fun b c => g (f a b) c))|].
  exact (seq_merge E _ _ _ _ q r (fun b c => (b, c)) (fun bc => g (f a (fst bc)) (snd bc))).
Qed.

(** ** Laws of plain parsing: the same values, positions, contexts, failures and
    exceptions (lists of expected values may differ) *)
Definition same_outcomes {A} (g h : gram A) : Prop :=
  forall s i c,
  (forall v j c' b, yields E g s i c v j c' b <-> yields E h s i c v j c' b) /\
  (forall b, fails E g s i c b <-> fails E h s i c b) /\
  (forall x, raises E g s i c x <-> raises E h s i c x).
(** [p] never succeeds without consuming *)
Definition consuming {A} (p : gram A) : Prop := forall s i c v j c', ~ yields E p s i c v j c' false.
(** [p] never fails after consuming *)
Definition backtracks {A} (p : gram A) : Prop := forall s i c, ~ fails E p s i c true.
(** at every place one of the two fails without consuming *)
Definition exclusive {A B} (p : gram A) (q : gram B) : Prop :=
  forall s i c, fails E p s i c false \/ fails E q s i c false.

Lemma y_det {A} (p : gram A) s i c v j c' b v2 j2 c2 b2 :
  yields E p s i c v j c' b -> yields E p s i c v2 j2 c2 b2 -> v = v2 /\ j = j2 /\ c' = c2 /\ b = b2.
Proof. rewrite !yields_runs. intros [e H] [e2 K]. pose proof (runs_det _ _ _ _ _ _ _ H K) as X. injection X as -> -> -> _ ->. auto. Qed.
Lemma y_f {A} (p : gram A) s i c v j c' b b2 : yields E p s i c v j c' b -> fails E p s i c b2 -> False.
Proof. rewrite yields_runs, fails_runs. intros [e H] (l & e2 & K). pose proof (runs_det _ _ _ _ _ _ _ H K). discriminate. Qed.
Lemma f_det {A} (p : gram A) s i c b b2 : fails E p s i c b -> fails E p s i c b2 -> b = b2.
Proof. rewrite !fails_runs. intros (l & e & H) (l2 & e2 & K). pose proof (runs_det _ _ _ _ _ _ _ H K) as X. injection X as _ _ ->. auto. Qed.
Lemma f_r {A} (p : gram A) s i c b x : fails E p s i c b -> raises E p s i c x -> False.
Proof. rewrite fails_runs. intros (l & e & H) K. exact (runs_raises _ _ _ _ _ _ _ H K). Qed.
Lemma alt_yields {A} (p q : gram A) s i c v j c' b :
  yields E (GAlt p q) s i c v j c' b <-> yields E p s i c v j c' b \/ fails E p s i c false /\ yields E q s i c v j c' b.
Proof.
  rewrite !yields_runs, fails_runs. split.
  - intros [e H]. apply C14_choice_committed in H as [(o & H & K)|[(f & H & _ & K)|(f & rq & H & Hf & Hq & K)]].
    + injection K as <-. eauto.
    + discriminate.
    + right. destruct f as [l x b']. cbn in Hf. subst b'. split; [eauto|]. destruct rq as [o|f]; cbn in K; [|destruct (er_con f); discriminate].
      injection K as -> -> -> _ ->. destruct o; eauto.
  - intros [[e H]|[(l & x & H) [e K]]].
    + exists e. apply C14_choice_committed. eauto.
    + eexists. apply C14_choice_committed. right. right. eexists _, _. split; [exact H|]. split; [reflexivity|]. split; [exact K|reflexivity].
Qed.
Lemma alt_fails {A} (p q : gram A) s i c b :
  fails E (GAlt p q) s i c b <-> fails E p s i c true /\ b = true \/ fails E p s i c false /\ fails E q s i c b.
Proof.
  rewrite !fails_runs. split.
  - intros (l & x & H). apply C14_choice_committed in H as [(o & H & K)|[(f & H & Hf & K)|(f & rq & H & Hf & Hq & K)]].
    + discriminate.
    + injection K as <-. cbn in Hf. subst b. eauto.
    + right. destruct f as [l' x' b']. cbn in Hf. subst b'. split; [eauto|]. destruct rq as [o|[l2 x2 []]]; cbn in K; [discriminate| |]; injection K as _ _ ->; eauto.
  - intros [[(l & x & H) ->]|[(l & x & H) (l2 & x2 & K)]].
    + exists l, x. apply C14_choice_committed. right. left. eauto.
    + destruct b; eexists _, _; apply C14_choice_committed; right; right; eexists _, _; (split; [exact H|]; split; [reflexivity|]; split; [exact K|reflexivity]).
Qed.
Lemma alt_raises {A} (p q : gram A) s i c x :
  raises E (GAlt p q) s i c x <-> raises E p s i c x \/ fails E p s i c false /\ raises E q s i c x.
Proof.
  rewrite C14_choice_exceptions, fails_runs. split; (intros [H|H]; [auto|right]).
  - destruct H as ([l e b] & H & Hb & K). cbn in Hb. subst b. eauto.
  - destruct H as [(l & e & H) K]. eexists. split; [exact H|]. auto.
Qed.
Lemma att_yields {A} (p : gram A) s i c v j c' b : yields E (GAttempt p) s i c v j c' b <-> yields E p s i c v j c' b.
Proof.
  rewrite !yields_runs. destruct (C20_attempt_plain E A p s i c) as [H _]. split; intros [e K].
  - apply H in K as [(o & K & X)|(f & _ & X)]; [|discriminate]. injection X as <-. eauto.
  - exists e. apply H. eauto.
Qed.
Lemma att_fails {A} (p : gram A) s i c b : fails E (GAttempt p) s i c b <-> b = false /\ exists b', fails E p s i c b'.
Proof.
  rewrite !fails_runs. destruct (C20_attempt_plain E A p s i c) as [H _]. split.
  - intros (l & e & K). apply H in K as [(o & _ & X)|([l' x' b'] & K & X)]; [discriminate|]. injection X as _ _ ->. split; auto. exists b'. apply fails_runs. eauto.
  - intros [-> [b' K]]. apply fails_runs in K as (l & e & K). exists l, e. apply H. right. eexists. split; [exact K|reflexivity].
Qed.
Lemma att_raises {A} (p : gram A) s i c x : raises E (GAttempt p) s i c x <-> raises E p s i c x.
Proof. apply C20_attempt_plain. Qed.
Lemma pure_yields {A} (x : A) s i c v j c' b : yields E (GPure x) s i c v j c' b <-> v = x /\ j = i /\ c' = c /\ b = false.
Proof.
  split.
  - intros (n & o & H & <- & <- & <- & <-). destruct n; [discriminate|]. cbn in H. injection H as <-. auto.
  - intros (-> & -> & -> & ->). exists 1. eexists. split; [reflexivity|]. auto.
Qed.
Lemma pure_nofail {A} (x : A) s i c b : ~ fails E (GPure x) s i c b.
Proof. intros (n & e & H & _). destruct n; discriminate. Qed.
Lemma pure_noraise {A} (x : A) s i c y : ~ raises E (GPure x) s i c y.
Proof. intros [[|n] H]; discriminate. Qed.

(** a common prefix may be pulled out of a choice that tries the first
    alternative, provided what follows the prefix there does not fail after
    consuming *)
Theorem C72_left_factor A B C (p : gram A) (q r : gram B) (m : A -> B -> C) :
  backtracks q -> same_outcomes (GSeq p (GAlt q r) m) (GAlt (GAttempt (GSeq p q m)) (GSeq p r m)).
Proof.
  intros BT s i c. split; [|split].
  - intros w j c' b. rewrite alt_yields, att_yields, att_fails, !seq_yields. split.
    + intros (x & k & c1 & b1 & v & b2 & Hp & H & -> & ->). apply alt_yields in H as [H|[Hq H]].
      * left. eexists _, _, _, _, _, _. eauto.
      * right. split; [|eexists _, _, _, _, _, _; eauto]. split; auto. exists (b1 || false). apply seq_fails. right. eexists _, _, _, _, _. eauto.
    + intros [(x & k & c1 & b1 & v & b2 & Hp & H & -> & ->)|[[_ [b' Hf]] (x & k & c1 & b1 & v & b2 & Hp & H & -> & ->)]];
        eexists _, _, _, _, _, _; (split; [exact Hp|]); rewrite alt_yields; [split; [left; exact H|auto]|].
      split; [right|auto]. split; [|exact H]. apply seq_fails in Hf as [Hf|(x2 & k2 & c2 & b3 & b4 & Hp2 & Hq & _)].
      * destruct (y_f _ _ _ _ _ _ _ _ _ Hp Hf).
      * destruct (y_det _ _ _ _ _ _ _ _ _ _ _ _ Hp Hp2) as (<- & <- & <- & <-). destruct b4; [destruct (BT _ _ _ Hq)|exact Hq].
  - intros b. rewrite alt_fails, !att_fails, !seq_fails. unfold round_fails. split.
    + intros [H|(x & k & c1 & b1 & b2 & Hp & H & ->)].
      * right. split; [|auto]. split; auto. exists b. apply seq_fails. left. exact H.
      * apply alt_fails in H as [[H ->]|[H K]]; [destruct (BT _ _ _ H)|].
        right. split; [|right; eexists _, _, _, _, _; eauto]. split; auto. exists (b1 || false). apply seq_fails. right. eexists _, _, _, _, _. eauto.
    + intros [[[K _] _]|[[_ [b' Hf]] [H|(x & k & c1 & b1 & b2 & Hp & H & ->)]]]; [discriminate|auto|].
      right. eexists _, _, _, _, _. split; [exact Hp|]. split; [|reflexivity]. apply alt_fails. right. split; [|exact H].
      apply seq_fails in Hf as [Hf|(x2 & k2 & c2 & b3 & b4 & Hp2 & Hq & _)].
      * destruct (y_f _ _ _ _ _ _ _ _ _ Hp Hf).
      * destruct (y_det _ _ _ _ _ _ _ _ _ _ _ _ Hp Hp2) as (<- & <- & <- & <-). destruct b4; [destruct (BT _ _ _ Hq)|exact Hq].
  - intros y. rewrite alt_raises, att_raises, att_fails, !seq_raises. split.
    + intros [H|(x & k & c1 & b1 & Hp & H)]; [auto|]. apply alt_raises in H as [H|[H K]].
      * left. right. eexists _, _, _, _. eauto.
      * right. split; [|right; eexists _, _, _, _; eauto]. split; auto. exists (b1 || false). apply seq_fails. right. eexists _, _, _, _, _. eauto.
    + intros [[H|(x & k & c1 & b1 & Hp & H)]|[[_ [b' Hf]] [H|(x & k & c1 & b1 & Hp & H)]]]; auto;
        right; eexists _, _, _, _; (split; [exact Hp|]); apply alt_raises; [auto|right].
      split; [|exact H]. apply seq_fails in Hf as [Hf|(x2 & k2 & c2 & b3 & b4 & Hp2 & Hq & _)].
      * destruct (y_f _ _ _ _ _ _ _ _ _ Hp Hf).
      * destruct (y_det _ _ _ _ _ _ _ _ _ _ _ _ Hp Hp2) as (<- & <- & <- & <-). destruct b4; [destruct (BT _ _ _ Hq)|exact Hq].
Qed.
(** a common suffix may be pulled out of a choice whose first alternative starts
    by consuming *)
Theorem C72_right_factor A B C (p q : gram A) (r : gram B) (m : A -> B -> C) :
  consuming p -> same_outcomes (GSeq (GAlt p q) r m) (GAlt (GSeq p r m) (GSeq q r m)).
Proof.
  intros CP s i c.
  assert (F : fails E (GSeq p r m) s i c false <-> fails E p s i c false).
  { rewrite seq_fails. unfold round_fails. split; [|auto]. intros [H|(x & k & c1 & b1 & b2 & Hp & H & K)]; auto.
    destruct b1; [discriminate|]. destruct (CP _ _ _ _ _ _ Hp). }
  split; [|split].
  - intros w j c' b. rewrite alt_yields, F, !seq_yields. split.
    + intros (x & k & c1 & b1 & v & b2 & H & Hr & -> & ->). apply alt_yields in H as [H|[Hp H]].
      * left. eexists _, _, _, _, _, _. eauto.
      * right. split; auto. eexists _, _, _, _, _, _. eauto.
    + intros [(x & k & c1 & b1 & v & b2 & Hp & H & -> & ->)|[Hf (x & k & c1 & b1 & v & b2 & Hp & H & -> & ->)]];
        eexists _, _, _, _, _, _; (split; [|split; [exact H|auto]]); apply alt_yields; auto.
  - intros b. rewrite alt_fails, F, !seq_fails. unfold round_fails. split.
    + intros [H|(x & k & c1 & b1 & b2 & H & K & ->)].
      * apply alt_fails in H as [[H ->]|[H K]]; auto.
      * apply alt_yields in H as [H|[H Hq]].
        -- destruct b1; [|destruct (CP _ _ _ _ _ _ H)]. left. split; [|reflexivity]. right. eexists _, _, _, _, _. eauto.
        -- right. split; auto. right. eexists _, _, _, _, _. eauto.
    + intros [[[H|(x & k & c1 & b1 & b2 & H & K & X)] ->]|[Hp [H|(x & k & c1 & b1 & b2 & H & K & ->)]]].
      * left. apply alt_fails. auto.
      * right. eexists _, _, _, _, _. split; [apply alt_yields; left; exact H|]. eauto.
      * left. apply alt_fails. auto.
      * right. eexists _, _, _, _, _. split; [apply alt_yields; right; split; [exact Hp|exact H]|]. eauto.
  - intros y. rewrite alt_raises, F, !seq_raises. split.
    + intros [H|(x & k & c1 & b1 & H & K)].
      * apply alt_raises in H as [H|[H K]]; auto.
      * apply alt_yields in H as [H|[H Hq]]; [left; right; eexists _, _, _, _; eauto|].
        right. split; auto. right. eexists _, _, _, _. eauto.
    + intros [[H|(x & k & c1 & b1 & H & K)]|[Hp [H|(x & k & c1 & b1 & H & K)]]].
      * left. apply alt_raises. auto.
      * right. eexists _, _, _, _. split; [apply alt_yields; left; exact H|exact K].
      * left. apply alt_raises. auto.
      * right. eexists _, _, _, _. split; [apply alt_yields; right; split; [exact Hp|exact H]|exact K].
Qed.
(** alternatives that exclude each other may be swapped *)
Theorem C72_alt_swap A (p q : gram A) : exclusive p q -> same_outcomes (GAlt p q) (GAlt q p).
Proof.
  intros X s i c. split; [|split].
  - intros v j c' b. rewrite !alt_yields. destruct (X s i c) as [F|F]; split.
    + intros [H|[_ H]]; auto. destruct (y_f _ _ _ _ _ _ _ _ _ H F).
    + intros [H|[_ H]]; auto.
    + intros [H|[_ H]]; auto.
    + intros [H|[_ H]]; auto. destruct (y_f _ _ _ _ _ _ _ _ _ H F).
  - intros b. rewrite !alt_fails. destruct (X s i c) as [F|F].
    + split; [intros [[H ->]|[_ H]]|intros [[H ->]|[H K]]].
      * pose proof (f_det _ _ _ _ _ _ H F). discriminate.
      * destruct b; auto.
      * auto.
      * pose proof (f_det _ _ _ _ _ _ K F) as ->. auto.
    + split; [intros [[H ->]|[H K]]|intros [[H ->]|[_ H]]].
      * auto.
      * pose proof (f_det _ _ _ _ _ _ K F) as ->. auto.
      * pose proof (f_det _ _ _ _ _ _ H F). discriminate.
      * destruct b; auto.
  - intros y. rewrite !alt_raises. destruct (X s i c) as [F|F]; split.
    + intros [H|[_ H]]; auto. destruct (f_r _ _ _ _ _ _ F H).
    + intros [H|[_ H]]; auto.
    + intros [H|[_ H]]; auto.
    + intros [H|[_ H]]; auto. destruct (f_r _ _ _ _ _ _ F H).
Qed.
(** a repetition is "one more, or nothing" *)
Theorem C72_many_unfold A (p : gram A) :
  consuming p -> same_outcomes (GMany p) (GAlt (GSeq p (GMany p) (fun v l => v :: l)) (GPure [])).
Proof.
  intros CP s i c. split; [|split].
  - intros w j c' b. rewrite alt_yields, pure_yields, seq_yields, seq_fails, many_yields. unfold round_fails. split.
    + intros (Hs & Hf & ->). destruct Hs as [i c|i c v j c' vs k c'' Hy Hs].
      * right. split; [left; exact Hf|]. auto.
      * left. eexists _, _, _, _, _, _. split; [exact Hy|]. rewrite many_yields. split; [split; [exact Hs|split; [exact Hf|reflexivity]]|]. auto.
    + intros [(x & k & c1 & b1 & v & b2 & Hp & H & -> & ->)|[H (-> & -> & -> & ->)]].
      * apply many_yields in H as (Hs & Hf & ->). destruct b1; [|destruct (CP _ _ _ _ _ _ Hp)]. split; [econstructor; eauto|]. auto.
      * split; [constructor|]. split; [|reflexivity]. destruct H as [H|(x & k & c1 & b1 & b2 & Hp & H & K)]; auto.
        destruct b1; [discriminate|destruct (CP _ _ _ _ _ _ Hp)].
  - intros b. rewrite alt_fails, seq_fails, many_fails. split.
    + intros (-> & ws & j & c' & Hs & Hf). left. split; auto. destruct Hs as [i c|i c v j c' vs k c'' Hy Hs]; [left; exact Hf|].
      right. eexists _, _, _, _, true. split; [exact Hy|]. rewrite many_fails. split; [|reflexivity]. split; auto. eauto.
    + intros [[[H|(x & k & c1 & b1 & b2 & Hp & H & K)] ->]|[_ H]]; [| |destruct (pure_nofail _ _ _ _ _ H)].
      * split; auto. exists [], i, c. split; [constructor|exact H].
      * apply many_fails in H as (-> & ws & j & c' & Hs & Hf). destruct b1; [|destruct (CP _ _ _ _ _ _ Hp)]. split; auto. eexists _, _, _. split; [econstructor; eauto|exact Hf].
  - intros y. rewrite alt_raises, seq_raises. destruct (C21_many_collects E A p s i c) as [_ ->]. split.
    + intros (vs & j & c' & Hs & H). left. destruct Hs as [i c|i c v j c' vs k c'' Hy Hs].
      * destruct H as [H|[_ (v & k & c'' & H)]]; [auto|destruct (CP _ _ _ _ _ _ H)].
      * right. eexists _, _, _, _. split; [exact Hy|]. apply C21_many_collects. eauto.
    + intros [[H|(x & k & c1 & b1 & Hp & H)]|[_ H]]; [| |destruct (pure_noraise _ _ _ _ _ H)].
      * exists [], i, c. split; [constructor|auto].
      * apply C21_many_collects in H as (vs & j & c' & Hs & H). destruct b1; [|destruct (CP _ _ _ _ _ _ Hp)]. eexists _, _, _. split; [econstructor; eauto|exact H].
Qed.
End Refactor.

(** ** Cases *)
From Verif Require Import Examples.
(** single symbols consume, fail without consuming, and exclude each other *)
Lemma sym_runs {T V} (E : env T V) teq x l s i c : 
  (exists t, nth_error s i = Some t /\ teq t x = true /\ runs E (GSym teq x l) s i c (SOk (Ok t (i + 1) c [] true))) \/
  runs E (GSym teq x l) s i c (SErr (Err (get_loc c s i) [l] false)).
Proof.
  destruct (nth_error s i) as [t|] eqn:H; [destruct (teq t x) eqn:K|].
  - left. exists t. split; [auto|split; [auto|]]. exists 1. cbn. unfold sym_fast, probe_sym. rewrite H. cbn. rewrite K. reflexivity.
  - right. exists 1. cbn. unfold sym_fast, probe_sym. rewrite H. cbn. rewrite K. reflexivity.
  - right. exists 1. cbn. unfold sym_fast, probe_sym. rewrite H. reflexivity.
Qed.
Theorem C72_symbols T V (E : env T V) teq x l y l' :
  consuming E (GSym teq x l) /\ backtracks E (GSym teq x l) /\
  ((forall t, teq t x = true -> teq t y = false) -> exclusive E (GSym teq x l) (GSym teq y l')).
Proof.
  split; [|split].
  - intros s i c v j c' H. apply yields_runs in H as [e H].
    destruct (sym_runs E teq x l s i c) as [(t & _ & _ & K)|K]; pose proof (runs_det _ _ _ _ _ _ _ H K); discriminate.
  - intros s i c H. apply fails_runs in H as (l0 & e & H).
    destruct (sym_runs E teq x l s i c) as [(t & _ & _ & K)|K]; pose proof (runs_det _ _ _ _ _ _ _ H K); discriminate.
  - intros N s i c. destruct (sym_runs E teq x l s i c) as [(t & Ht & K & _)|K].
    + right. destruct (sym_runs E teq y l' s i c) as [(t' & Ht' & K' & _)|K'].
      * rewrite Ht in Ht'. injection Ht' as <-. rewrite (N t K) in K'. discriminate.
      * apply fails_runs. eauto.
    + left. apply fails_runs. eauto.
Qed.

Definition c72_a := ex_sym "a". Definition c72_b := ex_sym "b". Definition c72_c := ex_sym "c".
Definition c72_c0 : ctx char := init_ctx default_get_loc.
Definition c72_pair (x y : char) : list char := [x; y].
(** a (b | c)  is  (a b).attempt() | a c;  (a | b) c  is  a c | b c;  a | b  is
    b | a;  a.many()  is  (a + a.many()) | pure([]) *)
Example C72_case :
  same_outcomes ex_E (GSeq c72_a (GAlt c72_b c72_c) c72_pair) (GAlt (GAttempt (GSeq c72_a c72_b c72_pair)) (GSeq c72_a c72_c c72_pair)) /\
  same_outcomes ex_E (GSeq (GAlt c72_a c72_b) c72_c c72_pair) (GAlt (GSeq c72_a c72_c c72_pair) (GSeq c72_b c72_c c72_pair)) /\
  same_outcomes ex_E (GAlt c72_a c72_b) (GAlt c72_b c72_a) /\
  same_outcomes ex_E (GMany c72_a) (GAlt (GSeq c72_a (GMany c72_a) (fun v l => v :: l)) (GPure [])) /\
  wf c72_a /\ wf c72_b /\ wf c72_c /\ wf_env ex_E.
Proof.
  split; [apply C72_left_factor, C72_symbols; [exact (ex_ch "b")|exact ""%string]|].
  split; [apply C72_right_factor, C72_symbols; [exact (ex_ch "b")|exact ""%string]|].
  split; [apply C72_alt_swap, C72_symbols|].
  { intros t H. apply N.eqb_eq in H. subst t. reflexivity. }
  split; [apply C72_many_unfold, C72_symbols; [exact (ex_ch "b")|exact ""%string]|].
  split; [|split; [|split]]; [repeat split..|]. intros d. solve_gall.
Qed.
(** the side conditions are needed: with a rest that fails after consuming,
    the factored parser commits where the original one tries the second
    alternative; and alternatives with a common prefix may not be swapped *)
Example C72_conditions_needed :
  ~ same_outcomes ex_E (GSeq c72_a (GAlt (GSeq c72_b c72_b c72_pair) (GSeq c72_b c72_c c72_pair)) (fun x l => x :: l))
      (GAlt (GAttempt (GSeq c72_a (GSeq c72_b c72_b c72_pair) (fun x l => x :: l)))
            (GSeq c72_a (GSeq c72_b c72_c c72_pair) (fun x l => x :: l))) /\
  ~ same_outcomes ex_E (GAlt (GSeq c72_a c72_b c72_pair) (GSeq c72_a c72_c c72_pair))
      (GAlt (GSeq c72_a c72_c c72_pair) (GSeq c72_a c72_b c72_pair)).
Proof.
  split; intros H.
  - destruct (H (ex_str "abc") 0 c72_c0) as [_ [K _]].
    assert (F : fails ex_E (GSeq c72_a (GAlt (GSeq c72_b c72_b c72_pair) (GSeq c72_b c72_c c72_pair)) (fun x l => x :: l))
      (ex_str "abc") 0 c72_c0 true).
    { exists 10. eexists. split; [vm_compute; reflexivity|reflexivity]. }
    apply K in F. destruct F as (n & e & F & _).
    assert (G : runs ex_E (GAlt (GAttempt (GSeq c72_a (GSeq c72_b c72_b c72_pair) (fun x l => x :: l)))
            (GSeq c72_a (GSeq c72_b c72_c c72_pair) (fun x l => x :: l))) (ex_str "abc") 0 c72_c0 (SErr e))
      by (exists n; exact F).
    eassert (R : runs _ _ _ _ _ (SOk _)); [|pose proof (runs_det _ _ _ _ _ _ _ G R); discriminate].
    exists 10. vm_compute. reflexivity.
  - destruct (H (ex_str "ab") 0 c72_c0) as [_ [K _]].
    assert (F : fails ex_E (GAlt (GSeq c72_a c72_c c72_pair) (GSeq c72_a c72_b c72_pair))
      (ex_str "ab") 0 c72_c0 true).
    { exists 10. eexists. split; [vm_compute; reflexivity|reflexivity]. }
    apply K in F. destruct F as (n & e & F & _).
    assert (G : runs ex_E (GAlt (GSeq c72_a c72_b c72_pair) (GSeq c72_a c72_c c72_pair)) (ex_str "ab") 0 c72_c0 (SErr e))
      by (exists n; exact F).
    eassert (R : runs _ _ _ _ _ (SOk _)); [|pose proof (runs_det _ _ _ _ _ _ _ G R); discriminate].
    exists 10. vm_compute. reflexivity.
Qed.
Print Assumptions C72_fmap_label.
Print Assumptions C72_fmap_attempt.
Print Assumptions C72_fmap_recover.
Print Assumptions C72_fmap_layout.
Print Assumptions C72_fmap_alt.
Print Assumptions C72_seq_fmap.
Print Assumptions C72_bind_fmap.
Print Assumptions C72_fmap_many.
Print Assumptions C72_fmap_maybe.
Print Assumptions C72_fmap_recover_with.
Print Assumptions C72_pure_left.
Print Assumptions C72_pure_right.
Print Assumptions C72_seq_assoc.
Print Assumptions C72_left_factor.
Print Assumptions C72_right_factor.
Print Assumptions C72_alt_swap.
Print Assumptions C72_many_unfold.
Print Assumptions C72_symbols.
