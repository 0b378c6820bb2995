(** The objects of core/chain.py: proofs. *)
From Verif Require Export Chain.

Section ChainProofs.
Context {T : Type}.

(** ** the objects iterated *)
Definition fl_op (o : copitem) : opitem := OpItem (cop_op o) (cop_loc o) (iter (cop_exp o)) (cop_con o).
Definition fl_rep {A} (r : crepair T A) : repair T A :=
  Repair (cr_cost r) (cr_prio r) (cr_ins r) (map fl_op (cr_ops r)) (cr_val r) (cr_pos r) (cr_ctx r) (iter (cr_exp r)) (cr_con r).
Definition fl_ok {A} (o : cokr T A) : okr T A := Ok (cok_val o) (cok_pos o) (cok_ctx o) (iter (cok_exp o)) (cok_con o).
Definition fl_er (e : cerrr) : errr := Err (cer_loc e) (iter (cer_exp e)) (cer_con e).
Definition fl_rec {A} (r : crecr T A) : recr T A :=
  Recd (map fl_rep (crc_reps r)) (crc_min r) (crc_loc r) (iter (crc_exp r)) (crc_con r).
Definition fl_sres {A} (r : csres T A) : sres T A := match r with CSOk o => SOk (fl_ok o) | CSErr e => SErr (fl_er e) end.
Definition fl_res {A} (r : cres T A) : res T A :=
  match r with CROk o => ROk (fl_ok o) | CRErr e => RErr (fl_er e) | CRRec r => RRec (fl_rec r) end.

(** ** all the objects in a result *)
Section All.
Variable P : chain -> Prop.
Definition all_op (o : copitem) : Prop := P (cop_exp o).
Definition all_rep {A} (r : crepair T A) : Prop := P (cr_exp r) /\ Forall all_op (cr_ops r).
Definition all_rec {A} (r : crecr T A) : Prop := P (crc_exp r) /\ Forall all_rep (crc_reps r).
Definition all_sres {A} (r : csres T A) : Prop := match r with CSOk o => P (cok_exp o) | CSErr e => P (cer_exp e) end.
Definition all_res {A} (r : cres T A) : Prop :=
  match r with CROk o => P (cok_exp o) | CRErr e => P (cer_exp e) | CRRec r => all_rec r end.
End All.
Lemma all_op_imp (P Q : chain -> Prop) : (forall x, P x -> Q x) -> forall o, all_op P o -> all_op Q o.
Proof. unfold all_op. auto. Qed.
Lemma all_rep_imp (P Q : chain -> Prop) A : (forall x, P x -> Q x) -> forall r : crepair T A, all_rep P r -> all_rep Q r.
Proof. intros H r [H1 H2]. split; auto. eapply Forall_impl; [|exact H2]. apply all_op_imp; auto. Qed.
Lemma all_rec_imp (P Q : chain -> Prop) A : (forall x, P x -> Q x) -> forall r : crecr T A, all_rec P r -> all_rec Q r.
Proof. intros H r [H1 H2]. split; auto. eapply Forall_impl; [|exact H2]. apply all_rep_imp; auto. Qed.
Lemma all_sres_imp (P Q : chain -> Prop) A : (forall x, P x -> Q x) -> forall r : csres T A, all_sres P r -> all_sres Q r.
Proof. intros H [o|e]; simpl; auto. Qed.
Lemma all_res_imp (P Q : chain -> Prop) A : (forall x, P x -> Q x) -> forall r : cres T A, all_res P r -> all_res Q r.
Proof. intros H [o|e|r]; simpl; auto. apply all_rec_imp; auto. Qed.

(** ** the same run, and the objects are low *)
Definition low (j d : nat) (x : chain) : Prop := height x + j <= d.
Definition simd {X Y} (D : nat) (fl : X -> Y) (lo : nat -> X -> Prop) (k : dm X) (m : dm Y) : Prop :=
  fst k = fst m /\
  match snd k with
  | Ret r => snd m = Ret (fl r) /\ lo (max D (fst k)) r
  | Raise e => snd m = Raise e
  | NoFuel => snd m = NoFuel
  end.
Definition slo {A} (j d : nat) (r : csres T A) : Prop := all_sres (low j d) r.
Definition rlo {A} (j d : nat) (r : cres T A) : Prop := all_res (low j d) r.
Definition lslo {A} (j d : nat) (l : list (crepair T A)) : Prop := Forall (all_rep (low j d)) l.
Definition ssim {A} D j (k : dm (csres T A)) m := simd D fl_sres (slo j) k m.
Definition rsim {A} D j (k : dm (cres T A)) m := simd D fl_res (rlo j) k m.

Lemma slo_mono A j d d' (r : csres T A) : d <= d' -> slo j d r -> slo j d' r.
Proof. intros H. apply all_sres_imp. unfold low. lia. Qed.
Lemma rlo_mono A j d d' (r : cres T A) : d <= d' -> rlo j d r -> rlo j d' r.
Proof. intros H. apply all_res_imp. unfold low. lia. Qed.
Lemma slo_0 A d (r : csres T A) : slo 1 d r -> slo 0 d r.
Proof. apply all_sres_imp. unfold low. lia. Qed.
Lemma rlo_0 A d (r : cres T A) : rlo 1 d r -> rlo 0 d r.
Proof. apply all_res_imp. unfold low. lia. Qed.

Lemma simd_D {X Y} D D' (fl : X -> Y) (lo : nat -> X -> Prop) k m :
  (forall d d' x, d <= d' -> lo d x -> lo d' x) -> D <= D' -> simd D fl lo k m -> simd D' fl lo k m.
Proof.
  intros Hm HD [H1 H2]. split; auto. destruct (snd k); auto. destruct H2 as [H2 H3]. split; auto.
  eapply Hm; [|exact H3]. lia.
Qed.
Lemma simd_ret {X Y} D (fl : X -> Y) (lo : nat -> X -> Prop) r : lo D r -> simd D fl lo (dret (Ret r)) (dret (Ret (fl r))).
Proof. intros H. split; [reflexivity|]. cbn. split; auto. rewrite Nat.max_0_r. auto. Qed.
Lemma simd_bind {X Y X' Y'} D (fl : X -> Y) (lo : nat -> X -> Prop) (fl' : X' -> Y') (lo' : nat -> X' -> Prop) k m f g :
  simd D fl lo k m ->
  (forall d r, D <= d -> lo d r -> simd d fl' lo' (f r) (g (fl r))) ->
  simd D fl' lo' (dbind k f) (dbind m g).
Proof.
  intros [H1 H2] H. unfold dbind. destruct (snd k) as [r|e|]; [|rewrite H2; split; auto; reflexivity..].
  destruct H2 as [H2 H3]. rewrite H2. destruct (H (max D (fst k)) r (Nat.le_max_l _ _) H3) as [H4 H5].
  split; cbn [fst snd]; [congruence|]. destruct (snd (f r)); auto. rewrite Nat.max_assoc. auto.
Qed.
Lemma nest_ssim A (k : dm (csres T A)) m : ssim 0 0 k m -> ssim 0 1 (nest k) (nest m).
Proof.
  intros [H1 H2]. split; cbn [nest fst snd]; [congruence|]. destruct (snd k); auto. destruct H2 as [H2 H3]. split; auto.
  revert H3. apply all_sres_imp. unfold low. cbn. lia.
Qed.
Lemma nest_rsim A (k : dm (cres T A)) m : rsim 0 0 k m -> rsim 0 1 (nest k) (nest m).
Proof.
  intros [H1 H2]. split; cbn [nest fst snd]; [congruence|]. destruct (snd k); auto. destruct H2 as [H2 H3]. split; auto.
  revert H3. apply all_res_imp. unfold low. cbn. lia.
Qed.
Lemma ssim_0 A D (k : dm (csres T A)) m : ssim D 1 k m -> ssim D 0 k m.
Proof. intros [H1 H2]. split; auto. destruct (snd k); auto. destruct H2. split; auto. apply slo_0; auto. Qed.
Lemma rsim_0 A D (k : dm (cres T A)) m : rsim D 1 k m -> rsim D 0 k m.
Proof. intros [H1 H2]. split; auto. destruct (snd k); auto. destruct H2. split; auto. apply rlo_0; auto. Qed.
Lemma ssim_D A D D' j (k : dm (csres T A)) m : D <= D' -> ssim D j k m -> ssim D' j k m.
Proof. apply simd_D. intros. eapply slo_mono; eauto. Qed.
Lemma rsim_D A D D' j (k : dm (cres T A)) m : D <= D' -> rsim D j k m -> rsim D' j k m.
Proof. apply simd_D. intros. eapply rlo_mono; eauto. Qed.

(** ** the methods of the results *)
Lemma fl_ops_set ops x : map fl_op (cops_set_expected ops x) = ops_set_expected (map fl_op ops) (iter x).
Proof. unfold cops_set_expected, ops_set_expected. rewrite !map_map. apply map_ext. intros [o l e con]. destruct con; reflexivity. Qed.
Lemma fl_ops_prepend ops x c : map fl_op (cops_prepend_expected ops x c) = ops_prepend_expected (map fl_op ops) (iter x) c.
Proof. unfold cops_prepend_expected, ops_prepend_expected. rewrite !map_map. apply map_ext. intros [o l e con]. destruct con; reflexivity. Qed.
Lemma fl_sres_prepend A x c (r : csres T A) : fl_sres (csres_prepend x c r) = sres_prepend (iter x) c (fl_sres r).
Proof. destruct r as [[v p cx e con]|[l e con]]; unfold cok_prepend, ok_prepend, cer_prepend, er_prepend; destruct con; reflexivity. Qed.
Lemma fl_sres_set_exp A x (r : csres T A) : fl_sres (csres_set_exp x r) = sres_set_exp (iter x) (fl_sres r).
Proof. destruct r as [[v p cx e con]|[l e con]]; unfold cok_prepend, ok_prepend, cer_prepend, er_prepend; destruct con; reflexivity. Qed.
Lemma fl_sres_set_ctx A x (r : csres T A) : fl_sres (csres_set_ctx x r) = sres_set_ctx x (fl_sres r).
Proof. destruct r; reflexivity. Qed.
Lemma fl_sres_con A (r : csres T A) : sres_con (fl_sres r) = csres_con r.
Proof. destruct r; reflexivity. Qed.
Lemma fl_rep_prepend A x c (r : crepair T A) : fl_rep (crep_prepend x c r) = rep_prepend (iter x) c (fl_rep r).
Proof. unfold fl_rep, crep_prepend, rep_prepend. cbn. rewrite fl_ops_prepend. destruct (cr_con r); reflexivity. Qed.
Lemma fl_rep_set_exp A x (r : crepair T A) : fl_rep (crep_set_exp x r) = rep_set_exp (iter x) (fl_rep r).
Proof. unfold fl_rep, crep_set_exp, rep_set_exp. cbn. rewrite fl_ops_set. destruct (cr_con r); reflexivity. Qed.
Lemma map_fl_ext {A B} (f : crepair T A -> crepair T B) g l : (forall r, fl_rep (f r) = g (fl_rep r)) ->
  map fl_rep (map f l) = map g (map fl_rep l).
Proof. intros H. rewrite !map_map. apply map_ext, H. Qed.
Lemma fl_rec_prepend A x c (r : crecr T A) : fl_rec (crec_prepend x c r) = rec_prepend (iter x) c (fl_rec r).
Proof. unfold fl_rec, crec_prepend, rec_prepend. cbn. rewrite (map_fl_ext _ _ _ (fl_rep_prepend A x c)). destruct (crc_con r); reflexivity. Qed.
Lemma fl_rec_set_exp A x (r : crecr T A) : fl_rec (crec_set_exp x r) = rec_set_exp (iter x) (fl_rec r).
Proof. unfold fl_rec, crec_set_exp, rec_set_exp. cbn. rewrite (map_fl_ext _ _ _ (fl_rep_set_exp A x)). destruct (crc_con r); reflexivity. Qed.
Lemma fl_res_prepend A x c (r : cres T A) : fl_res (cres_prepend x c r) = res_prepend (iter x) c (fl_res r).
Proof.
  destruct r as [[v p cx e con]|[l e con]|r]; [destruct con; reflexivity..|].
  cbn [fl_res cres_prepend res_prepend]. rewrite fl_rec_prepend. reflexivity.
Qed.
Lemma fl_res_set_exp A x (r : cres T A) : fl_res (cres_set_exp x r) = res_set_exp (iter x) (fl_res r).
Proof.
  destruct r as [[v p cx e con]|[l e con]|r]; [destruct con; reflexivity..|].
  cbn [fl_res cres_set_exp res_set_exp]. rewrite fl_rec_set_exp. reflexivity.
Qed.
Lemma fl_res_set_ctx A x (r : cres T A) : fl_res (cres_set_ctx x r) = res_set_ctx x (fl_res r).
Proof.
  destruct r as [o|e|r]; try reflexivity. cbn [fl_res cres_set_ctx res_set_ctx]. unfold fl_rec, crec_set_ctx, rec_set_ctx. cbn.
  rewrite (map_fl_ext (crep_set_ctx x) (rep_set_ctx x)); [reflexivity|]. reflexivity.
Qed.
Lemma fl_res_con A (r : cres T A) : res_con (fl_res r) = cres_con r.
Proof. destruct r; reflexivity. Qed.
Lemma fl_res_exp A (r : cres T A) : res_exp (fl_res r) = iter (cres_exp r).
Proof. destruct r; reflexivity. Qed.

(** *** how high *)
Section High.
Variables P Q : chain -> Prop.
Hypothesis HPQ : forall x, P x -> Q x.
Hypothesis Happ : forall x y, P x -> P y -> Q (CAppend x y).
Lemma all_ops_set ops x : P x -> Forall (all_op P) ops -> Forall (all_op P) (cops_set_expected ops x).
Proof. intros Hx H. apply Forall_map. eapply Forall_impl; [|exact H]. intros o Ho. unfold all_op in *. destruct (cop_con o); auto. Qed.
Lemma all_ops_prepend ops x c : P x -> Forall (all_op P) ops -> Forall (all_op Q) (cops_prepend_expected ops x c).
Proof using HPQ Happ. intros Hx H. apply Forall_map. eapply Forall_impl; [|exact H]. intros o Ho. unfold all_op in *. destruct (cop_con o); cbn; auto. Qed.
Lemma all_sres_prepend A x c (r : csres T A) : P x -> all_sres P r -> all_sres Q (csres_prepend x c r).
Proof using HPQ Happ. destruct r as [[v p cx e con]|[l e con]]; destruct con; cbn; auto. Qed.
Lemma all_sres_set_exp A x (r : csres T A) : P x -> all_sres P r -> all_sres P (csres_set_exp x r).
Proof. destruct r as [[v p cx e con]|[l e con]]; destruct con; cbn; auto. Qed.
Lemma all_rep_prepend A x c (r : crepair T A) : P x -> all_rep P r -> all_rep Q (crep_prepend x c r).
Proof using HPQ Happ. intros Hx [H1 H2]. split; [cbn; destruct (cr_con r); auto|]. apply all_ops_prepend; auto. Qed.
Lemma all_rep_set_exp A x (r : crepair T A) : P x -> all_rep P r -> all_rep P (crep_set_exp x r).
Proof. intros Hx [H1 H2]. split; [cbn; destruct (cr_con r); auto|]. apply all_ops_set; auto. Qed.
Lemma all_rec_set_exp A x (r : crecr T A) : P x -> all_rec P r -> all_rec P (crec_set_exp x r).
Proof.
  intros Hx [H1 H2]. split; [cbn; destruct (crc_con r); auto|]. apply Forall_map. eapply Forall_impl; [|exact H2].
  intros a. apply all_rep_set_exp; auto.
Qed.
Lemma all_res_prepend A x c (r : cres T A) : P x -> all_res P r -> all_res Q (cres_prepend x c r).
Proof using HPQ Happ.
  intros Hx. destruct r as [[v p cx e con]|[l e con]|r]; [destruct con; cbn; auto..|]. intros [H1 H2].
  split; [cbn; destruct (crc_con r); auto|]. apply Forall_map. eapply Forall_impl; [|exact H2].
  intros a. apply all_rep_prepend; auto.
Qed.
Lemma all_res_set_exp A x (r : cres T A) : P x -> all_res P r -> all_res P (cres_set_exp x r).
Proof. intros Hx. destruct r as [[v p cx e con]|[l e con]|r]; [destruct con; cbn; auto..|]. apply all_rec_set_exp; auto. Qed.
Lemma all_sres_set_ctx A x (r : csres T A) : all_sres P r -> all_sres P (csres_set_ctx x r).
Proof. destruct r; auto. Qed.
Lemma all_res_set_ctx A x (r : cres T A) : all_res P r -> all_res P (cres_set_ctx x r).
Proof. destruct r as [o|e|r]; auto. intros [H1 H2]. split; auto. apply Forall_map. exact H2. Qed.
Lemma all_cres_exp A (r : cres T A) : all_res P r -> P (cres_exp r).
Proof. destruct r; simpl; auto. intros [H _]; auto. Qed.
Lemma all_join_repairs A (a b : crecr T A) : all_rec P a -> all_rec P b ->
  P (crc_exp a) -> P (crc_exp b) -> Forall (all_rep P) (crc_reps (cjoin_repairs a b)) /\
  (crc_con (cjoin_repairs a b) = true -> P (crc_exp (cjoin_repairs a b))).
Proof.
  intros [Ha1 Ha2] [Hb1 Hb2] _ _. unfold cjoin_repairs.
  assert (F : forall f, Forall (all_rep P) (crc_reps a ++ filter f (crc_reps b))).
  { intros f. apply Forall_app. split; auto. rewrite Forall_forall in *. intros x Hx. apply filter_In in Hx. apply Hb2, Hx. }
  destruct (crc_min a); destruct (crc_con a) eqn:Ea; try (split; [apply F|intros _; exact Ha1]);
    destruct (crc_con b) eqn:Eb; (split; [apply F|]); cbn; auto; discriminate.
Qed.
Lemma fl_join_repairs A (a b : crecr T A) : fl_rec (cjoin_repairs a b) = join_repairs (fl_rec a) (fl_rec b).
Proof.
  unfold cjoin_repairs, join_repairs. cbn [fl_rec rc_min rc_reps rc_con rc_loc rc_exp].
  assert (F : forall f g, (forall r, f r = g (@fl_rep A r)) -> map fl_rep (crc_reps a ++ filter f (crc_reps b)) =
     map fl_rep (crc_reps a) ++ filter g (map fl_rep (crc_reps b))).
  { intros f g H. rewrite map_app. f_equal. induction (crc_reps b) as [|x l IH]; [reflexivity|]. cbn. rewrite <- H.
    destruct (f x); cbn; rewrite IH; reflexivity. }
  destruct (crc_min a); destruct (crc_con a) eqn:Ea; destruct (crc_con b) eqn:Eb; cbn;
    unfold fl_rec; cbn; (erewrite F; [reflexivity|]); intros r; cbn [fl_rep r_prio]; destruct (cr_prio r); reflexivity.
Qed.
Lemma all_alt_rec A x (a b : crecr T A) : P x -> all_rec P a -> all_rec P b ->
  all_rec P (crec_set_exp x (cjoin_repairs a b)).
Proof.
  intros Hx Ha Hb. destruct (all_join_repairs A a b Ha Hb (proj1 Ha) (proj1 Hb)) as [H1 H2]. split.
  - cbn [crec_set_exp crc_exp]. destruct (crc_con (cjoin_repairs a b)); auto.
  - cbn [crec_set_exp crc_reps]. apply Forall_map. eapply Forall_impl; [|exact H1]. intros r. apply all_rep_set_exp; auto.
Qed.
Lemma all_cont_ok A B C ins (merge : A -> B -> C) (r : crepair T A) (o : cokr T B) : all_rep P r -> P (cok_exp o) ->
  all_rep Q (ccont_ok ins merge r o).
Proof using HPQ Happ.
  intros [H1 H2] Ho. split; [cbn; unfold cappend_expected; destruct (cok_con o); auto|]. cbn.
  eapply Forall_impl; [|exact H2]. apply all_op_imp; auto.
Qed.
Lemma all_cont_rec A B C (merge : A -> B -> C) (r : crepair T A) (rr : crepair T B) : all_rep P r -> all_rep P rr ->
  all_rep Q (ccont_rec merge r rr).
Proof using HPQ Happ.
  intros [H1 H2] [H3 H4]. split; [cbn; unfold cappend_expected; destruct (cr_con rr); auto|]. cbn. unfold cjoin_ops.
  apply Forall_app. split; [|apply all_ops_prepend; auto]. apply Forall_map. eapply Forall_impl; [|exact H2].
  intros o Ho. apply HPQ, Ho.
Qed.
End High.
Lemma fl_cont_ok A B C ins (merge : A -> B -> C) (r : crepair T A) (o : cokr T B) :
  fl_rep (ccont_ok ins merge r o) = cont_ok ins merge (fl_rep r) (fl_ok o).
Proof. unfold fl_rep, ccont_ok, cont_ok, cappend_expected, append_expected. cbn. destruct (cok_con o); reflexivity. Qed.
Lemma fl_cont_rec A B C (merge : A -> B -> C) (r : crepair T A) (rr : crepair T B) :
  fl_rep (ccont_rec merge r rr) = cont_rec merge (fl_rep r) (fl_rep rr).
Proof.
  unfold fl_rep, ccont_rec, cont_rec, cappend_expected, append_expected. cbn. f_equal; [|destruct (cr_con rr); reflexivity].
  unfold cjoin_ops, join_ops. cbn. rewrite map_app, fl_ops_prepend. f_equal. rewrite !map_map. reflexivity.
Qed.

(** *** fmap *)
Lemma sim_sfmap A B D j (f : A -> out B) (r : csres T A) : slo j D r ->
  ssim D j (dret (csres_fmap f r)) (dret (sres_fmap f (fl_sres r))).
Proof.
  intros H. destruct r as [o|e]; [|apply (simd_ret D fl_sres (slo j) (CSErr e)); auto]. split; [reflexivity|]. cbn. unfold cok_fmap, ok_fmap. cbn.
  destruct (f (cok_val o)); cbn; auto. split; auto. rewrite Nat.max_0_r. exact H.
Qed.
Lemma map_fmap A B (P : chain -> Prop) (f : A -> out B) (l : list (crepair T A)) : Forall (all_rep P) l ->
  match mapM (crep_fmap f) l with
  | Ret x => mapM (rep_fmap f) (map fl_rep l) = Ret (map fl_rep x) /\ Forall (all_rep P) x
  | Raise e => mapM (rep_fmap f) (map fl_rep l) = Raise e
  | NoFuel => mapM (rep_fmap f) (map fl_rep l) = NoFuel
  end.
Proof.
  induction 1 as [|r l Hr _ IH]; [split; auto; constructor|]. cbn. unfold crep_fmap at 1, rep_fmap at 1 3 5. cbn.
  destruct (f (cr_val r)); cbn; auto. destruct (mapM (crep_fmap f) l); [|rewrite IH; reflexivity..].
  destruct IH as [-> IH]. cbn. split; [reflexivity|]. constructor; auto. 
Qed.
Lemma sim_rfmap A B D j (f : A -> out B) (r : cres T A) : rlo j D r ->
  rsim D j (dret (cres_fmap f r)) (dret (res_fmap f (fl_res r))).
Proof.
  intros H. destruct r as [o|e|r]; [|apply (simd_ret D fl_res (rlo j) (CRErr e)); auto|].
  - split; [reflexivity|]. cbn. unfold cok_fmap, ok_fmap. cbn.
    destruct (f (cok_val o)); cbn; auto. split; auto. rewrite Nat.max_0_r. exact H.
  - destruct H as [H1 H2]. split; [reflexivity|]. cbn. unfold crec_fmap, rec_fmap. cbn.
    pose proof (map_fmap A B _ f _ H2) as M. destruct (mapM (crep_fmap f) (crc_reps r)); [|rewrite M; reflexivity..].
    destruct M as [-> M]. cbn. split; [reflexivity|]. rewrite Nat.max_0_r. split; auto.
Qed.

(** ** continuing a repair *)
Lemma low_S d x : low 1 d x -> low 0 d x.
Proof. unfold low. lia. Qed.
Lemma low_app d x y : low 1 d x -> low 1 d y -> low 0 d (CAppend x y).
Proof. unfold low. cbn. lia. Qed.
Lemma sim_flat_map {A B X Y} D (fa : A -> X) (fb : B -> Y) (la : nat -> A -> Prop) (lb : nat -> B -> Prop) f g :
  (forall d d' a, d <= d' -> la d a -> la d' a) -> (forall d d' b, d <= d' -> lb d b -> lb d' b) ->
  (forall d a, D <= d -> la d a -> simd d (map fb) (fun d l => Forall (lb d) l) (f a) (g (fa a))) ->
  forall l d, D <= d -> Forall (la d) l ->
  simd d (map fb) (fun d l => Forall (lb d) l) (dflat_map f l) (dflat_map g (map fa l)).
Proof.
  intros Hma Hmb Hf. induction l as [|a l IH]; intros d Hd Hl; [apply (simd_ret d (map fb) (fun d l => Forall (lb d) l) []); constructor|]. cbn.
  inversion Hl as [|? ? Ha Hl']. subst. eapply simd_bind; [apply Hf; auto|].
  intros d1 y Hd1 Hy. eapply simd_bind; [apply IH; [lia|]|].
  - eapply Forall_impl; [|exact Hl']. intros. eapply Hma; [|eassumption]; auto.
  - intros d2 z Hd2 Hz. rewrite <- map_app. apply simd_ret. apply Forall_app. split; auto.
    eapply Forall_impl; [|exact Hy]. intros. eapply Hmb; [|eassumption]; auto.
Qed.
Lemma all_rep_low A j d d' (r : crepair T A) : d <= d' -> all_rep (low j d) r -> all_rep (low j d') r.
Proof. intros H. apply all_rep_imp. unfold low. lia. Qed.
Lemma sim_continue A B C D (ra : crecr T A) ins (f : A -> nat -> ctx T -> Z -> dm (cres T B)) g (merge : A -> B -> C) :
  (forall v p c r, rsim 0 1 (f v p c r) (g v p c r)) -> all_rec (low 1 D) ra ->
  rsim D 0 (continue_chain ra ins f merge) (continue_depth (fl_rec ra) ins g merge).
Proof.
  intros H [H1 H2]. unfold continue_chain, continue_depth. eapply simd_bind.
  - cbn [fl_rec rc_reps]. apply (sim_flat_map D fl_rep fl_rep (fun d => all_rep (low 1 d)) (fun d => all_rep (low 0 d))); auto.
    + intros. eapply all_rep_low; eauto.
    + intros. eapply all_rep_low; eauto.
    + intros d a Hd Ha. unfold cont_one_chain, cont_one_depth. eapply simd_bind; [apply (rsim_D _ 0 d); [lia|apply H]|].
      intros d1 r Hd1 Hr. pose proof (all_rep_low _ 1 d d1 _ Hd1 Ha) as Ha'. destruct r as [o|e|r]; cbn [fl_res].
      * rewrite <- fl_cont_ok. apply (simd_ret d1 (map fl_rep) (fun d l => Forall _ l) [_]). constructor; auto.
        apply (all_cont_ok (low 1 d1) (low 0 d1)); auto using low_S, low_app.
      * apply (simd_ret d1 (map fl_rep) (fun d l => Forall _ l) []). constructor.
      * replace (map (cont_rec merge (fl_rep a)) (rc_reps (fl_rec r))) with (map fl_rep (map (ccont_rec merge a) (crc_reps r))).
        2:{ cbn. rewrite !map_map. apply map_ext. intros. apply fl_cont_rec. }
        apply simd_ret. apply Forall_map. destruct Hr as [_ Hr]. eapply Forall_impl; [|exact Hr].
        intros rr Hrr. apply (all_cont_rec (low 1 d1) (low 0 d1)); auto using low_S, low_app.
  - intros d reps Hd Hreps. 
    apply (simd_ret d fl_res (rlo 0) (CRRec (CRecd reps (crc_min ra) (crc_loc ra) (crc_exp ra) (crc_con ra)))).
    split; auto. cbn. unfold low in *. lia.
Qed.

(** ** the primitive parsers *)
Lemma fl_leaf_op o : fl_op (leaf_op o) = o.
Proof. destruct o; reflexivity. Qed.
Lemma map_id_ext {A} (f : A -> A) l : (forall x, f x = x) -> map f l = l.
Proof. intros H. rewrite <- (map_id l) at 2. apply map_ext, H. Qed.
Lemma fl_leaf_rep A (r : repair T A) : fl_rep (leaf_rep r) = r.
Proof. destruct r. unfold fl_rep, leaf_rep. cbn. rewrite map_map, (map_id_ext _ _ fl_leaf_op). reflexivity. Qed.
Lemma fl_leaf_sres A (r : sres T A) : fl_sres (leaf_sres r) = r.
Proof. destruct r as [[v p c e con]|[l e con]]; reflexivity. Qed.
Lemma fl_leaf_res A (r : res T A) : fl_res (leaf_res r) = r.
Proof.
  destruct r as [[v p c e con]|[l e con]|[reps mn l e con]]; try reflexivity. unfold fl_res, leaf_res, leaf_rec, fl_rec. cbn.
  rewrite map_map, (map_id_ext _ _ (fl_leaf_rep A)). reflexivity.
Qed.
Lemma leaf_sres_lo A D (r : sres T A) : slo 0 D (leaf_sres r).
Proof. destruct r; cbn; unfold low; cbn; lia. Qed.
Lemma leaf_res_lo A D (r : res T A) : rlo 0 D (leaf_res r).
Proof.
  destruct r; cbn; unfold low; cbn; try lia. split; [cbn; lia|]. cbn. apply Forall_map, Forall_forall. intros x _.
  split; [cbn; lia|]. cbn. apply Forall_map, Forall_forall. intros y _. unfold all_op. cbn. lia.
Qed.
Lemma ssim_leaf A D (r : out (sres T A)) : ssim D 0 (dret (omap leaf_sres r)) (dret r).
Proof.
  destruct r as [r|e|]; [|split; reflexivity..]. split; [reflexivity|]. cbn. rewrite fl_leaf_sres. split; auto. apply leaf_sres_lo.
Qed.
Lemma rsim_leaf A D (r : out (res T A)) : rsim D 0 (dret (omap leaf_res r)) (dret r).
Proof.
  destruct r as [r|e|]; [|split; reflexivity..]. split; [reflexivity|]. cbn. rewrite fl_leaf_res. split; auto. apply leaf_res_lo.
Qed.

(** ** the combinators *)
Definition psim {A} (p : pchain T A) (q : pdepth T A) : Prop := forall s pos c, ssim 0 1 (p s pos c) (q s pos c).
Definition psimr {A} (p : pchainr T A) (q : pdepthr T A) : Prop :=
  forall s pos c ins rem, rsim 0 1 (p s pos c ins rem) (q s pos c ins rem).
Lemma ssim_ret A D j (r : csres T A) r' : slo j D r -> r' = fl_sres r -> ssim D j (dret (Ret r)) (dret (Ret r')).
Proof. intros H ->. apply simd_ret; auto. Qed.
Lemma rsim_ret A D j (r : cres T A) r' : rlo j D r -> r' = fl_res r -> rsim D j (dret (Ret r)) (dret (Ret r')).
Proof. intros H ->. apply simd_ret; auto. Qed.
Lemma ssim_raise A D j x : ssim (A := A) D j (dret (Raise x)) (dret (Raise x)).
Proof. split; reflexivity. Qed.
Lemma rsim_raise A D j x : rsim (A := A) D j (dret (Raise x)) (dret (Raise x)).
Proof. split; reflexivity. Qed.
Lemma ssim_bind A B D j j' (k : dm (csres T A)) m (f : csres T A -> dm (csres T B)) g : ssim D j k m ->
  (forall d r, D <= d -> slo j d r -> ssim d j' (f r) (g (fl_sres r))) -> ssim D j' (dbind k f) (dbind m g).
Proof. apply simd_bind. Qed.
Lemma rsim_bind A B D j j' (k : dm (cres T A)) m (f : cres T A -> dm (cres T B)) g : rsim D j k m ->
  (forall d r, D <= d -> rlo j d r -> rsim d j' (f r) (g (fl_res r))) -> rsim D j' (dbind k f) (dbind m g).
Proof. apply simd_bind. Qed.

Lemma sim_seq A B C p p' q q' (merge : A -> B -> C) s pos c : psim p p' -> psim q q' ->
  ssim 0 0 (seq_chain p q merge s pos c) (seq_depth p' q' merge s pos c).
Proof.
  intros Hp Hq. eapply ssim_bind; [apply Hp|]. intros d [o|e] _ Hr.
  2:{ apply ssim_ret; auto. apply slo_0; auto. }
  cbn [fl_sres]. eapply ssim_bind; [apply (ssim_D _ 0 d); [lia|apply Hq]|]. intros d' r Hd Hr'.
  assert (Ho : low 1 d' (cok_exp o)) by (cbn in Hr; unfold low in *; lia).
  destruct r as [o'|e'].
  - cbn. apply (ssim_ret C d' 0 (csres_prepend (cok_exp o) (cok_con o)
      (CSOk (COk (merge (cok_val o) (cok_val o')) (cok_pos o') (cok_ctx o') (cok_exp o') (cok_con o'))))).
    + apply (all_sres_prepend (low 1 d')); auto using low_S, low_app.
    + rewrite fl_sres_prepend. reflexivity.
  - cbn. apply (ssim_ret C d' 0 (csres_prepend (cok_exp o) (cok_con o) (CSErr e'))).
    + apply (all_sres_prepend (low 1 d')); auto using low_S, low_app.
    + rewrite fl_sres_prepend. reflexivity.
Qed.
Lemma sim_bind A B p p' (f : A -> pchain T B) f' s pos c : psim p p' -> (forall v, psim (f v) (f' v)) ->
  ssim 0 0 (bind_chain p f s pos c) (bind_depth p' f' s pos c).
Proof.
  intros Hp Hq. eapply ssim_bind; [apply Hp|]. intros d [o|e] _ Hr.
  2:{ apply ssim_ret; auto. apply slo_0; auto. }
  cbn [fl_sres]. eapply ssim_bind; [apply (ssim_D _ 0 d); [lia|apply Hq]|]. intros d' r Hd Hr'.
  assert (Ho : low 1 d' (cok_exp o)) by (cbn in Hr; unfold low in *; lia).
  apply ssim_ret; [|rewrite fl_sres_prepend; reflexivity]. apply (all_sres_prepend (low 1 d')); auto using low_S, low_app.
Qed.
Lemma sim_alt A (p q : pchain T A) p' q' s pos c : psim p p' -> psim q q' ->
  ssim 0 0 (alt_chain p q s pos c) (alt_depth p' q' s pos c).
Proof.
  intros Hp Hq. eapply ssim_bind; [apply Hp|]. intros d [o|e] _ Hr.
  { apply ssim_ret; auto. apply slo_0; auto. }
  cbn [fl_sres]. change (er_con (fl_er e)) with (cer_con e). destruct (cer_con e).
  { apply ssim_ret; auto. apply slo_0; auto. }
  eapply ssim_bind; [apply (ssim_D _ 0 d); [lia|apply Hq]|]. intros d' r Hd Hr'. rewrite fl_sres_con.
  assert (He : low 1 d' (cer_exp e)) by (cbn in Hr; unfold low in *; lia).
  destruct (csres_con r) eqn:Hc; [apply ssim_ret; auto; apply slo_0; auto|].
  destruct r as [o'|e']; cbn [fl_sres].
  - apply ssim_ret; [|unfold cok_set_exp, ok_set_exp; cbn; destruct (cok_con o'); reflexivity].
    cbn. unfold cok_set_exp. destruct (cok_con o'); cbn; auto using low_S, low_app.
  - apply ssim_ret; [|reflexivity]. cbn. apply low_app; auto.
Qed.
Lemma sim_many A (p : pchain T A) p' : psim p p' -> forall n b vs s pos c D,
  ssim D 0 (many_chain p n b vs s pos c) (many_depth p' n b vs s pos c).
Proof.
  intros Hp. induction n as [|n IH]; intros b vs s pos c D; [split; reflexivity|]. cbn [many_chain many_depth].
  eapply ssim_bind; [apply (ssim_D _ 0 D); [lia|apply Hp]|]. intros d [o|e] _ Hr; cbn [fl_sres].
  - change (ok_con (fl_ok o)) with (cok_con o). destruct (cok_con o); [apply IH|apply ssim_raise].
  - change (er_con (fl_er e)) with (cer_con e). destruct (cer_con e); apply ssim_ret; auto; apply low_S, Hr.
Qed.

Lemma sim_seqr A B C p p' q q' (merge : A -> B -> C) s pos c ins rem : psimr p p' -> psimr q q' ->
  rsim 0 0 (seq_chainr p q merge s pos c ins rem) (seq_depthr p' q' merge s pos c ins rem).
Proof.
  intros Hp Hq. eapply rsim_bind; [apply Hp|]. intros d [o|e|r] _ Hr.
  2:{ apply rsim_ret; auto. apply (rlo_0 C d (CRErr e)); auto. }
  2:{ cbn [fl_res]. apply sim_continue; auto. }
  cbn [fl_res]. eapply rsim_bind; [apply (rsim_D _ 0 d); [lia|apply Hq]|]. intros d' r Hd Hr'.
  assert (Ho : low 1 d' (cok_exp o)) by (cbn in Hr; unfold low in *; lia).
  pose proof (sim_rfmap B C d' 1 (fun vb => Ret (merge (cok_val o) vb)) r Hr') as [_ F]. cbn [dret snd] in F.
  split; [reflexivity|]. cbn [dret snd fst]. cbn [fl_ok ok_val].
  destruct (cres_fmap _ r) as [rr|x|]; [|rewrite F; reflexivity..]. destruct F as [-> F]. cbn [obind]. split.
  - rewrite fl_res_prepend. reflexivity.
  - rewrite Nat.max_0_r in *. apply (all_res_prepend (low 1 d')); auto using low_S, low_app.
Qed.
Lemma sim_bindr A B p p' (f : A -> pchainr T B) f' s pos c ins rem : psimr p p' -> (forall v, psimr (f v) (f' v)) ->
  rsim 0 0 (bind_chainr p f s pos c ins rem) (bind_depthr p' f' s pos c ins rem).
Proof.
  intros Hp Hq. eapply rsim_bind; [apply Hp|]. intros d [o|e|r] _ Hr.
  2:{ apply rsim_ret; auto. apply (rlo_0 B d (CRErr e)); auto. }
  2:{ cbn [fl_res]. apply sim_continue; auto. intros. apply Hq. }
  cbn [fl_res]. eapply rsim_bind; [apply (rsim_D _ 0 d); [lia|apply Hq]|]. intros d' r Hd Hr'.
  assert (Ho : low 1 d' (cok_exp o)) by (cbn in Hr; unfold low in *; lia).
  apply rsim_ret; [|rewrite fl_res_prepend; reflexivity]. apply (all_res_prepend (low 1 d')); auto using low_S, low_app.
Qed.
Lemma sim_alt_recover A (p q : pchainr T A) p' q' la x s pos c ins rem D : psimr p p' -> psimr q q' -> low 0 D x ->
  rsim D 0 (alt_recover_chain p q la x s pos c ins rem) (alt_recover_depth p' q' la (iter x) s pos c ins rem).
Proof.
  intros Hp Hq Hx. unfold alt_recover_chain, alt_recover_depth. destruct rem as [m|]; [|apply rsim_ret; auto].
  eapply rsim_bind; [apply (rsim_D _ 0 D); [lia|apply Hp]|]. intros d1 r1 Hd1 Hr1.
  eapply rsim_bind; [apply (rsim_D _ 0 d1); [lia|apply Hq]|]. intros d2 r2 Hd2 Hr2.
  assert (Hx2 : low 0 d2 x) by (unfold low in *; lia).
  apply (rlo_mono _ _ _ d2) in Hr1; auto. apply rlo_0 in Hr1, Hr2.
  destruct r1 as [o1|e1|r1], r2 as [o2|e2|r2]; cbn [fl_res]; try (apply rsim_ret; auto; fail).
  - apply rsim_ret; [|cbn; rewrite fl_rec_set_exp; reflexivity]. apply all_rec_set_exp; auto.
  - apply rsim_ret; [|cbn; rewrite fl_rec_set_exp; reflexivity]. apply all_rec_set_exp; auto.
  - apply rsim_ret; [|cbn; rewrite fl_rec_set_exp; reflexivity]. apply all_rec_set_exp; auto.
  - apply rsim_ret; [|cbn; rewrite fl_rec_set_exp; reflexivity]. apply all_rec_set_exp; auto.
  - apply rsim_ret; [|cbn; rewrite fl_rec_set_exp, fl_join_repairs; reflexivity]. apply all_alt_rec; auto.
Qed.
Lemma sim_altr A (p q : pchainr T A) p' q' s pos c ins rem : psimr p p' -> psimr q q' ->
  rsim 0 0 (alt_chainr p q s pos c ins rem) (alt_depthr p' q' s pos c ins rem).
Proof.
  intros Hp Hq. eapply rsim_bind; [apply Hp|]. intros d ra _ Hr. pose proof (rlo_0 _ _ _ Hr) as Hr0.
  pose proof (all_cres_exp _ _ _ Hr) as Hxa.
  destruct ra as [o|[la xa ca]|[reps mn la xa ca]]; [apply rsim_ret; auto| |];
    cbn [fl_res fl_er fl_rec cer_loc cer_exp cer_con crc_reps crc_min crc_loc crc_exp crc_con cres_exp] in *;
    (destruct ca; [apply rsim_ret; auto|]);
    (eapply rsim_bind; [apply (rsim_D _ 0 d); [lia|apply Hq]|]; intros d' rb Hd Hr'; rewrite fl_res_con;
     pose proof (rlo_0 _ _ _ Hr') as Hr0'; pose proof (all_cres_exp _ _ _ Hr') as Hxb;
     assert (Hxa' : low 1 d' xa) by (unfold low in *; lia);
     destruct (cres_con rb) eqn:Hc; [apply rsim_ret; auto|]; rewrite fl_res_exp;
     change (iter xa ++ iter (cres_exp rb)) with (iter (CAppend xa (cres_exp rb)));
     destruct rb as [ob|eb|rb]; cbn [fl_res cres_exp] in *; [|apply sim_alt_recover; auto using low_app..];
     apply rsim_ret; [|unfold cok_set_exp, ok_set_exp; cbn; destruct (cok_con ob); reflexivity];
     cbn; unfold cok_set_exp; destruct (cok_con ob); cbn; auto using low_app, low_S).
Qed.
Lemma sim_manyr A (p : pchainr T A) p' : psimr p p' -> forall n b vs s pos c ins D,
  rsim D 0 (many_chainr p n b vs s pos c ins) (many_depthr p' n b vs s pos c ins).
Proof.
  intros Hp. induction n as [|n IH]; intros b vs s pos c ins D; [split; reflexivity|]. cbn [many_chainr many_depthr].
  eapply rsim_bind; [apply (rsim_D _ 0 D); [lia|apply Hp]|]. intros d [o|e|r] _ Hr; cbn [fl_res].
  - change (ok_con (fl_ok o)) with (cok_con o). destruct (cok_con o); [apply IH|apply rsim_raise].
  - change (er_con (fl_er e)) with (cer_con e). destruct (cer_con e); apply rsim_ret; auto; apply low_S, Hr.
  - apply sim_continue; auto. intros. apply nest_rsim. apply IH.
Qed.

Context {V : nat -> Type}.
Variable E : env T V.
Theorem cfast_sim n : forall A (g : gram T V A), psim (cfast E n g) (dfast E n g).
Proof.
  induction n as [|n IH]; intros A g s pos c; [split; reflexivity|].
  destruct g as [A x|A f|A l| |test|teq x l|teq x l|A m|A B p f|A p q|A B p f|A B C p q merge|A p|A p|A p|A p x|A p|A p x l|A p fn lab|A p|A p|A delta p|d|A];
    cbn [cfast dfast]; try (apply IH); try (apply nest_ssim); try (apply ssim_leaf).
  - eapply ssim_bind; [apply IH|]. intros d r _ Hr. apply sim_sfmap. apply slo_0; auto.
  - apply sim_alt; apply IH.
  - apply sim_bind; intros; apply IH.
  - apply sim_seq; apply IH.
  - eapply ssim_bind; [apply IH|]. intros d [o|e] _ Hr; cbn [fl_sres].
    + apply (sim_sfmap A (option A) d 0 (fun v => Ret (Some v)) (CSOk o)). apply slo_0; auto.
    + change (er_con (fl_er e)) with (cer_con e). destruct (cer_con e); apply ssim_ret; auto; apply low_S, Hr.
  - apply sim_many. apply IH.
  - eapply ssim_bind; [apply IH|]. intros d [o|e] _ Hr; cbn [fl_sres]; apply ssim_ret; auto; apply low_S, Hr.
  - eapply ssim_bind; [apply IH|]. intros d r _ Hr. apply ssim_ret; [|rewrite fl_sres_set_exp; reflexivity].
    apply all_sres_set_exp; [unfold low; cbn; lia|apply slo_0; auto].
  - unfold block_chain, block_depth. eapply ssim_bind; [apply IH|]. intros d r _ Hr.
    apply ssim_ret; [|rewrite fl_sres_set_ctx; reflexivity]. apply all_sres_set_ctx, slo_0; auto.
  - unfold aligned_chain, aligned_depth. destruct (Z.eqb _ _); [apply ssim_0, IH|].
    apply ssim_ret; auto. unfold slo, all_sres, low. cbn. lia.
  - unfold indented_chain, indented_depth. destruct (Z.eqb _ _).
    + eapply ssim_bind; [apply IH|]. intros d r _ Hr.
      apply ssim_ret; [|rewrite fl_sres_set_ctx; reflexivity]. apply all_sres_set_ctx, slo_0; auto.
    + apply ssim_ret; auto. unfold slo, all_sres, low. cbn. lia.
  - apply ssim_0, IH.
Qed.

Lemma sim_recover_with A (p : pchainr T A) p' mk lab s pos c ins rem : psimr p p' ->
  rsim 0 0 (recover_with_chainr p mk lab s pos c ins rem) (recover_with_depthr p' mk lab s pos c ins rem).
Proof.
  intros Hp. unfold recover_with_chainr, recover_with_depthr. destruct rem as [m|]; [|apply rsim_0, Hp].
  eapply rsim_bind; [apply Hp|]. intros d r _ Hr. apply rlo_0 in Hr. pose proof (all_cres_exp _ _ _ Hr) as Hx.
  rewrite fl_res_con, fl_res_exp.
  destruct r as [o|e|r]; cbn [fl_res] in *; [apply rsim_ret; auto| |];
    (destruct (cres_con _); [apply rsim_ret; auto|]; destruct (Z.eqb m 0); [apply rsim_ret; auto|];
     destruct (mk s pos) as [x|y|]; [|split; reflexivity..]; cbn [obind]; apply rsim_ret; [|reflexivity]).
  - split; [unfold low; cbn; lia|]. constructor; [|constructor]. split; [unfold low; cbn; lia|]. constructor; [exact Hx|constructor].
  - destruct Hr as [H1 H2]. split; auto. constructor; auto. split; [unfold low; cbn; lia|]. constructor; [exact Hx|constructor].
Qed.
Theorem cfull_sim n : forall A (g : gram T V A), psimr (cfull E n g) (dfull E n g).
Proof.
  induction n as [|n IH]; intros A g s pos c ins rem; [split; reflexivity|].
  cbn [cfull dfull]. apply nest_rsim.
  destruct g as [A x|A f|A l| |test|teq x l|teq x l|A m|A B p f|A p q|A B p f|A B C p q merge|A p|A p|A p|A p x|A p|A p x l|A p fn lab|A p|A p|A delta p|d|A];
    try (apply rsim_leaf).
  - eapply rsim_bind; [apply IH|]. intros d r _ Hr. apply sim_rfmap. apply rlo_0; auto.
  - apply sim_altr; apply IH.
  - apply sim_bindr; intros; apply IH.
  - apply sim_seqr; apply IH.
  - eapply rsim_bind; [apply IH|]. intros d r _ Hr. pose proof (all_cres_exp _ _ _ (rlo_0 _ _ _ Hr)) as Hx.
    destruct r as [o|e|r]; cbn [fl_res].
    + apply (sim_rfmap A (option A) d 0 (fun v => Ret (Some v)) (CROk o)). apply rlo_0; auto.
    + cbn. destruct (cer_con e); apply rsim_ret; auto; apply Hx.
    + cbn [cres_con res_con fl_rec rc_con]. destruct (crc_con r).
      * apply (sim_rfmap A (option A) d 0 (fun v => Ret (Some v)) (CRRec r)). apply rlo_0; auto.
      * apply rsim_ret; auto; apply Hx.
  - apply sim_manyr. apply IH.
  - unfold attempt_chainr, attempt_depthr. destruct rem; [apply rsim_0, IH|].
    eapply simd_bind; [apply cfast_sim|]. intros d [o|e] _ Hr; cbn [fl_sres]; apply rsim_ret; auto; apply low_S, Hr.
  - eapply rsim_bind; [apply IH|]. intros d r _ Hr. apply rsim_ret; [|rewrite fl_res_set_exp; reflexivity].
    apply all_res_set_exp; [unfold low; cbn; lia|apply rlo_0; auto].
  - eapply rsim_bind; [apply IH|]. intros d [o|e|r] _ Hr; cbn [fl_res]; apply rlo_0 in Hr; apply rsim_ret; auto.
    + destruct Hr as [H1 H2]. split; auto. apply Forall_map. exact H2.
    + cbn. unfold fl_rec. cbn. rewrite (map_fl_ext crep_set_prio rep_set_prio); [reflexivity|]. intros x. reflexivity.
  - apply sim_recover_with. apply IH.
  - apply sim_recover_with. apply IH.
  - unfold block_chainr, block_depthr. eapply rsim_bind; [apply IH|]. intros d r _ Hr.
    apply rsim_ret; [|rewrite fl_res_set_ctx; reflexivity]. apply all_res_set_ctx, rlo_0; auto.
  - unfold aligned_chainr, aligned_depthr. destruct (Z.eqb _ _); [apply rsim_0, IH|].
    apply rsim_ret; auto. unfold rlo, all_res, low. cbn. lia.
  - unfold indented_chainr, indented_depthr. destruct (Z.eqb _ _).
    + eapply rsim_bind; [apply IH|]. intros d r _ Hr.
      apply rsim_ret; [|rewrite fl_res_set_ctx; reflexivity]. apply all_res_set_ctx, rlo_0; auto.
    + apply rsim_ret; auto. unfold rlo, all_res, low. cbn. lia.
  - apply rsim_0, IH.
Qed.

(** ** unwrap *)
Definition fl_pres {A} (r : cpresult T A) : presult T A := ResultWrapper (fl_res (cpr_result r)) (cpr_fmt r).
Lemma fl_key_lt A (a b : crepair T A) : key_lt (fl_rep a) (fl_rep b) = ckey_lt a b.
Proof. reflexivity. Qed.
Lemma fl_min A (l : list (crepair T A)) : forall x, py_min (fl_rep x) (map fl_rep l) = fl_rep (cpy_min x l).
Proof.
  induction l as [|y l IH]; intros x; [reflexivity|]. cbn [map py_min cpy_min]. rewrite fl_key_lt, <- IH.
  destruct (ckey_lt y x); reflexivity.
Qed.
Lemma cpy_min_in A (l : list (crepair T A)) : forall x, In (cpy_min x l) (x :: l).
Proof.
  induction l as [|y l IH]; intros x; [left; reflexivity|]. cbn [cpy_min].
  destruct (IH (if ckey_lt y x then y else x)) as [<-|H]; [destruct (ckey_lt y x); cbn; auto|right; right; auto].
Qed.
Lemma fl_unwrap A (r : cpresult T A) rec : snd (cunwrap r rec) = unwrap (fl_pres r) rec.
Proof.
  destruct r as [[o|e|r] fmt]; try reflexivity. unfold cunwrap, unwrap, fl_pres. cbn [cpr_result pr_result fl_res].
  unfold fl_rec. cbn [rc_reps crc_reps]. destruct (crc_reps r) as [|y l]; [reflexivity|]. cbn [map]. rewrite fl_min.
  destruct rec; [reflexivity|]. cbn. rewrite !map_map. reflexivity.
Qed.
Lemma max_le l d : Forall (fun x => x <= d) l -> fold_right max 0 l <= d.
Proof. induction 1; cbn; lia. Qed.
Lemma unwrap_low A (r : cpresult T A) rec d : rlo 0 d (cpr_result r) -> fst (cunwrap r rec) <= d.
Proof.
  destruct r as [[o|e|r] fmt]; unfold cunwrap; cbn [cpr_result].
  - cbn. lia.
  - cbn. unfold low. lia.
  - intros [H1 H2]. destruct (crc_reps r) as [|y l]; [cbn; unfold low in *; lia|]. destruct rec; [cbn; lia|].
    cbn [fst]. pose proof (cpy_min_in A l y) as Hin. rewrite Forall_forall in H2. destruct (H2 _ Hin) as [_ H3].
    apply max_le. rewrite map_map. apply Forall_map. eapply Forall_impl; [|exact H3]. intros o. unfold all_op, low. cbn. lia.
Qed.
Lemma cparse_sim A n (g : gram T V A) s rec mi get fmt :
  simd 0 fl_pres (fun d r => rlo 1 d (cpr_result r)) (cparse E n g s rec mi get fmt)
    (if rec then parse_nested_rec E n g s mi get fmt else parse_nested E n g s get fmt).
Proof.
  unfold cparse, parse_nested_rec, parse_nested. destruct rec; cbv zeta.
  - pose proof (cfull_sim n A g s 0 (init_ctx get) mi (Some mi)) as [H1 H2]. unfold dbind.
    set (k := cfull E n g s 0 (init_ctx get) mi (Some mi)) in *. set (m := dfull E n g s 0 (init_ctx get) mi (Some mi)) in *.
    destruct (snd k) as [r|x|]; [|rewrite H2; split; cbn; auto..]. destruct H2 as [-> H2]. split; cbn; [lia|].
    split; [reflexivity|]. rewrite Nat.max_0_r. exact H2.
  - pose proof (cfast_sim n A g s 0 (init_ctx get)) as [H1 H2]. unfold dbind.
    set (k := cfast E n g s 0 (init_ctx get)) in *. set (m := dfast E n g s 0 (init_ctx get)) in *.
    destruct (snd k) as [r|x|]; [|rewrite H2; split; cbn; auto..]. destruct H2 as [-> H2]. split; cbn; [lia|].
    split; [destruct r; reflexivity|]. rewrite !Nat.max_0_r. destruct r; exact H2.
Qed.
End ChainProofs.
