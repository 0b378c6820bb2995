(** Related parsers give related results (used by C55, C56). *)
From Verif Require Export ParamSpec EditSpec EditInv.

Section Lists.
Context {A B C D : Type}.
Lemma F2_app (R : A -> B -> Prop) l1 l2 m1 m2 : Forall2 R l1 m1 -> Forall2 R l2 m2 -> Forall2 R (l1 ++ l2) (m1 ++ m2).
Proof. apply Forall2_app. Qed.
Lemma F2_map (R : A -> B -> Prop) (Q : C -> D -> Prop) (f : A -> C) (g : B -> D) l m :
  (forall x y, R x y -> Q (f x) (g y)) -> Forall2 R l m -> Forall2 Q (map f l) (map g m).
Proof. intros H. induction 1; simpl; constructor; auto. Qed.
Lemma F2_filter (R : A -> B -> Prop) f g l m :
  (forall x y, R x y -> f x = g y) -> Forall2 R l m -> Forall2 R (filter f l) (filter g m).
Proof. intros H. induction 1; simpl; auto. rewrite <- (H x y); auto. destruct (f x); auto. Qed.
Lemma F2_mapM (R : A -> B -> Prop) (Q : C -> D -> Prop) f g l m :
  (forall x y, R x y -> outrel Q (f x) (g y)) -> Forall2 R l m -> outrel (Forall2 Q) (mapM f l) (mapM g m).
Proof.
  intros H. induction 1 as [|x y l m Hxy Hlm IH]; simpl; auto.
  specialize (H x y Hxy). destruct (f x), (g y); simpl in *; try contradiction; auto.
  destruct (mapM f l), (mapM g m); simpl in *; try contradiction; auto.
Qed.
Lemma F2_flat_mapM (R : A -> B -> Prop) (Q : C -> D -> Prop) f g l m :
  (forall x y, R x y -> outrel (Forall2 Q) (f x) (g y)) -> Forall2 R l m ->
  outrel (Forall2 Q) (flat_mapM f l) (flat_mapM g m).
Proof.
  intros H. induction 1 as [|x y l m Hxy Hlm IH]; simpl; auto.
  specialize (H x y Hxy). destruct (f x), (g y); simpl in *; try contradiction; auto.
  destruct (flat_mapM f l), (flat_mapM g m); simpl in *; try contradiction; auto.
  apply Forall2_app; auto.
Qed.
Lemma out_bind (R : A -> B -> Prop) (Q : C -> D -> Prop) x y f g :
  outrel R x y -> (forall a b, R a b -> outrel Q (f a) (g b)) -> outrel Q (obind x f) (obind y g).
Proof. destruct x, y; simpl; intros; try contradiction; auto. Qed.
Lemma out_weaken (R Q : A -> B -> Prop) x y : (forall a b, R a b -> Q a b) -> outrel R x y -> outrel Q x y.
Proof. destruct x, y; simpl; auto. Qed.
Lemma F2_impl (R Q : A -> B -> Prop) l m : (forall x y, R x y -> Q x y) -> Forall2 R l m -> Forall2 Q l m.
Proof. intros H. induction 1; auto. Qed.
Lemma F2_len (R : A -> B -> Prop) l m : Forall2 R l m -> List.length l = List.length m.
Proof. induction 1; simpl; auto. Qed.
Lemma F2_nth (R : A -> B -> Prop) l m : Forall2 R l m -> forall i, optrel R (nth_error l i) (nth_error m i).
Proof. induction 1; intros [|i]; simpl; auto. Qed.
Lemma F2_skipn (R : A -> B -> Prop) l m : Forall2 R l m -> forall i, Forall2 R (skipn i l) (skipn i m).
Proof. induction 1; intros [|i]; simpl; auto. Qed.
End Lists.

Section Param.
Context {T1 T2 : Type} {V1 V2 : nat -> Type}.
Variable E1 : env T1 V1.
Variable E2 : env T2 V2.
Variable RT : T1 -> T2 -> Prop.
Variable RV : forall d, V1 d -> V2 d -> Prop.
Variable s1 : list T1.
Variable s2 : list T2.
Variables k1 k2 : nat.
Variable lay : Prop.
Notation grel := (grel RT RV s1 s2 k1 k2 lay).
Variable get1 : loc -> list T1 -> nat -> loc.
Variable get2 : loc -> list T2 -> nat -> loc.
Variables locof1 locof2 : nat -> loc.
Variable D : Z.
Hypothesis Hco1 : cohere get1 s1 locof1.
Hypothesis Hco2 : cohere get2 s2 locof2.
Hypothesis Hx1 : lay -> exactpos s1 locof1.
Hypothesis Hx2 : lay -> exactpos s2 locof2.
Let N := List.length s1 - k1.
Hypothesis Hk1 : k1 <= List.length s1.
Hypothesis Hk2 : k2 <= List.length s2.
Hypothesis Hs : Forall2 RT (skipn k1 s1) (skipn k2 s2).
Hypothesis Hcol : lay -> forall i, i <= N -> loc_col (locof1 (k1 + i)) = (loc_col (locof2 (k2 + i)) + D)%Z.
Hypothesis HE : forall d, grel (V1 d) (V2 d) (RV d) (E1 d) (E2 d).
Notation lrel := (locrel2 s1 k1 k2 locof1 locof2).

Lemma len2 : List.length s2 = k2 + N.
Proof. apply F2_len in Hs. rewrite !skipn_length in Hs. unfold N. lia. Qed.
Lemma len1 : List.length s1 = k1 + N.
Proof. unfold N. lia. Qed.

Definition crel (i : nat) (c1 : ctx T1) (c2 : ctx T2) : Prop :=
  pos_Cok get1 locof1 (k1 + i) c1 /\ pos_Cok get2 locof2 (k2 + i) c2 /\
  (lay -> ctx_mark c1 = (ctx_mark c2 + D)%Z).
Let CS1 := pos_system s1 get1 locof1 lay Hco1 Hx1.
Let CS2 := pos_system s2 get2 locof2 lay Hco2 Hx2.

Lemma crel_mono i j c1 c2 : crel i c1 c2 -> i <= j -> crel j c1 c2.
Proof.
  intros (H1 & H2 & H3) H. split; [|split; auto].
  - eapply (cs_mono _ _ _ _ _ CS1); eauto. lia.
  - eapply (cs_mono _ _ _ _ _ CS2); eauto. lia.
Qed.
Lemma crel_loc i c1 c2 : crel i c1 c2 -> i <= N -> lrel (get_loc c1 s1 (k1 + i)) (get_loc c2 s2 (k2 + i)).
Proof.
  intros (H1 & H2 & _) Hi. exists i. pose proof len2. pose proof len1. split; [lia|]. split.
  - apply (cs_loc _ _ _ _ _ CS1); auto. lia.
  - apply (cs_loc _ _ _ _ _ CS2); auto. lia.
Qed.
Lemma crel_upd i j c1 c2 : crel i c1 c2 -> i <= j -> j <= N -> crel j (update_loc c1 s1 (k1 + j)) (update_loc c2 s2 (k2 + j)).
Proof.
  intros (H1 & H2 & H3) Hi Hj. pose proof len2. pose proof len1. split; [|split].
  - apply (cs_upd _ _ _ _ _ CS1 (k1 + i)); auto. lia.
  - apply (cs_upd _ _ _ _ _ CS2 (k2 + i)); auto. lia.
  - intros L. rewrite !upd_mark. auto.
Qed.
Lemma crel_col i c1 c2 : lay -> crel i c1 c2 -> i <= N ->
  lrel (ctx_loc (update_loc c1 s1 (k1 + i))) (ctx_loc (update_loc c2 s2 (k2 + i))) /\
  loc_col (ctx_loc (update_loc c1 s1 (k1 + i))) = (loc_col (ctx_loc (update_loc c2 s2 (k2 + i))) + D)%Z.
Proof.
  intros L (H1 & H2 & H3) Hi. pose proof len2. pose proof len1.
  destruct (cs_col _ _ _ _ _ CS1 _ _ L H1) as [A1 B1]; [lia|].
  destruct (cs_col _ _ _ _ _ CS2 _ _ L H2) as [A2 B2]; [lia|].
  split; [exists i; split; [lia|]; auto|]. rewrite B1, B2. auto.
Qed.
Lemma crel_mark i c1 c2 m1 m2 : crel i c1 c2 -> (lay -> m1 = (m2 + D)%Z) -> crel i (set_mark c1 m1) (set_mark c2 m2).
Proof.
  intros (H1 & H2 & H3) H. split; [|split; [|exact H]].
  - apply (cs_mark _ _ _ _ _ CS1); auto.
  - apply (cs_mark _ _ _ _ _ CS2); auto.
Qed.

(** ** Related results *)
Record okrel {A B} (R : A -> B -> Prop) (i : nat) (o : okr T1 A) (o' : okr T2 B) : Prop := {
  okl_pos : exists j, i <= j /\ j <= N /\ ok_pos o = k1 + j /\ ok_pos o' = k2 + j /\ crel j (ok_ctx o) (ok_ctx o');
  okl_val : R (ok_val o) (ok_val o');
  okl_exp : ok_exp o = ok_exp o';
  okl_con : ok_con o = ok_con o' }.
Record errel (e e' : errr) : Prop := {
  erl_loc : lrel (er_loc e) (er_loc e');
  erl_exp : er_exp e = er_exp e';
  erl_con : er_con e = er_con e' }.
Record oprel (o o' : opitem) : Prop := {
  opl_op : op_op o = op_op o';
  opl_loc : lrel (op_loc o) (op_loc o');
  opl_exp : op_exp o = op_exp o';
  opl_con : op_con o = op_con o' }.
Record reprel {A B} (R : A -> B -> Prop) (i : nat) (r : repair T1 A) (r' : repair T2 B) : Prop := {
  rpl_cost : r_cost r = r_cost r';
  rpl_prio : r_prio r = r_prio r';
  rpl_ins : r_ins r = r_ins r';
  rpl_ops : Forall2 oprel (r_ops r) (r_ops r');
  rpl_val : R (r_val r) (r_val r');
  rpl_pos : exists j, i <= j /\ j <= N /\ r_pos r = k1 + j /\ r_pos r' = k2 + j /\ crel j (r_ctx r) (r_ctx r');
  rpl_exp : r_exp r = r_exp r';
  rpl_con : r_con r = r_con r' }.
Record recrel {A B} (R : A -> B -> Prop) (i : nat) (r : recr T1 A) (r' : recr T2 B) : Prop := {
  rcl_reps : Forall2 (reprel R i) (rc_reps r) (rc_reps r');
  rcl_min : rc_min r = rc_min r';
  rcl_loc : lrel (rc_loc r) (rc_loc r');
  rcl_exp : rc_exp r = rc_exp r';
  rcl_con : rc_con r = rc_con r' }.
Definition srel {A B} (R : A -> B -> Prop) (i : nat) (x : sres T1 A) (y : sres T2 B) : Prop :=
  match x, y with
  | SOk o, SOk o' => okrel R i o o'
  | SErr e, SErr e' => errel e e'
  | _, _ => False
  end.
Definition rrel {A B} (R : A -> B -> Prop) (i : nat) (x : res T1 A) (y : res T2 B) : Prop :=
  match x, y with
  | ROk o, ROk o' => okrel R i o o'
  | RErr e, RErr e' => errel e e'
  | RRec r, RRec r' => recrel R i r r'
  | _, _ => False
  end.
Definition frel {A B} (R : A -> B -> Prop) (p : pfast T1 A) (q : pfast T2 B) : Prop :=
  forall i c1 c2, i <= N -> crel i c1 c2 -> outrel (srel R i) (p s1 (k1 + i) c1) (q s2 (k2 + i) c2).
Definition prel {A B} (R : A -> B -> Prop) (p : pfull T1 A) (q : pfull T2 B) : Prop :=
  forall i c1 c2 ins rem, i <= N -> crel i c1 c2 ->
  outrel (rrel R i) (p s1 (k1 + i) c1 ins rem) (q s2 (k2 + i) c2 ins rem).

Lemma okrel_weak {A B} (R Q : A -> B -> Prop) i i' o o' : (forall x y, R x y -> Q x y) -> i' <= i -> okrel R i o o' -> okrel Q i' o o'.
Proof. intros H Hi [(j & P1 & P2) V E C]. constructor; auto. exists j. split; [lia|auto]. Qed.
Lemma reprel_weak {A B} (R Q : A -> B -> Prop) i i' o o' : (forall x y, R x y -> Q x y) -> i' <= i -> reprel R i o o' -> reprel Q i' o o'.
Proof. intros H Hi []. destruct rpl_pos0 as (j & P1 & P2). constructor; auto. exists j. split; [lia|auto]. Qed.
Lemma recrel_weak {A B} (R Q : A -> B -> Prop) i i' o o' : (forall x y, R x y -> Q x y) -> i' <= i -> recrel R i o o' -> recrel Q i' o o'.
Proof.
  intros H Hi []. constructor; auto. eapply F2_impl; [|exact rcl_reps0].
  intros x y. apply reprel_weak; auto.
Qed.
Lemma srel_weak {A B} (R Q : A -> B -> Prop) i i' o o' : (forall x y, R x y -> Q x y) -> i' <= i -> srel R i o o' -> srel Q i' o o'.
Proof. destruct o, o'; simpl; auto. apply okrel_weak. Qed.
Lemma rrel_weak {A B} (R Q : A -> B -> Prop) i i' o o' : (forall x y, R x y -> Q x y) -> i' <= i -> rrel R i o o' -> rrel Q i' o o'.
Proof. destruct o, o'; simpl; auto. - apply okrel_weak. - apply recrel_weak. Qed.

Lemma srel_con {A B} (R : A -> B -> Prop) i x y : srel R i x y -> sres_con x = sres_con y.
Proof. destruct x, y; simpl; intros []; auto. Qed.
Lemma rrel_con {A B} (R : A -> B -> Prop) i x y : rrel R i x y -> res_con x = res_con y.
Proof. destruct x, y; simpl; intros []; auto. Qed.
Lemma rrel_exp {A B} (R : A -> B -> Prop) i x y : rrel R i x y -> res_exp x = res_exp y.
Proof. destruct x, y; simpl; intros []; auto. Qed.

Ltac ck := constructor; simpl; auto.

Lemma ok_exp_rel {A B} (R : A -> B -> Prop) i o o' x : okrel R i o o' -> okrel R i (ok_set_exp x o) (ok_set_exp x o').
Proof. intros [P V E C]. unfold ok_set_exp. rewrite <- C. destruct (ok_con o) eqn:K; ck; congruence. Qed.
Lemma er_exp_rel x e e' : errel e e' -> errel (er_set_exp x e) (er_set_exp x e').
Proof. intros [P E C]. unfold er_set_exp. rewrite <- C. destruct (er_con e) eqn:K; ck; congruence. Qed.
Lemma ops_exp_rel x l l' : Forall2 oprel l l' -> Forall2 oprel (ops_set_expected l x) (ops_set_expected l' x).
Proof. apply F2_map. intros o o' []. rewrite <- opl_con0. destruct (op_con o) eqn:K; ck; congruence. Qed.
Lemma ops_pre_rel x b l l' : Forall2 oprel l l' -> Forall2 oprel (ops_prepend_expected l x b) (ops_prepend_expected l' x b).
Proof. apply F2_map. intros o o' []. rewrite <- opl_con0. destruct (op_con o) eqn:K; ck; congruence. Qed.
Lemma rc_exp_rel {A B} (R : A -> B -> Prop) i r r' x : recrel R i r r' -> recrel R i (rec_set_exp x r) (rec_set_exp x r').
Proof.
  intros []. unfold rec_set_exp. ck.
  - eapply F2_map; [|exact rcl_reps0]. intros a b []. ck. + apply ops_exp_rel; auto. + rewrite rpl_con0, rpl_exp0; auto.
  - rewrite rcl_con0, rcl_exp0. auto.
Qed.
Lemma sres_exp_rel {A B} (R : A -> B -> Prop) i r r' x : srel R i r r' -> srel R i (sres_set_exp x r) (sres_set_exp x r').
Proof. destruct r, r'; simpl; auto. - apply ok_exp_rel. - apply er_exp_rel. Qed.
Lemma res_exp_rel {A B} (R : A -> B -> Prop) i r r' x : rrel R i r r' -> rrel R i (res_set_exp x r) (res_set_exp x r').
Proof. destruct r, r'; simpl; auto. - apply ok_exp_rel. - apply er_exp_rel. - apply rc_exp_rel. Qed.

Lemma ok_pre_rel {A B} (R : A -> B -> Prop) i o o' x b : okrel R i o o' -> okrel R i (ok_prepend x b o) (ok_prepend x b o').
Proof. intros [P V E C]. unfold ok_prepend. rewrite <- C. destruct (ok_con o) eqn:K; ck; congruence. Qed.
Lemma er_pre_rel x b e e' : errel e e' -> errel (er_prepend x b e) (er_prepend x b e').
Proof. intros [P E C]. unfold er_prepend. rewrite <- C. destruct (er_con e) eqn:K; ck; congruence. Qed.
Lemma rc_pre_rel {A B} (R : A -> B -> Prop) i r r' x b : recrel R i r r' -> recrel R i (rec_prepend x b r) (rec_prepend x b r').
Proof.
  intros []. unfold rec_prepend. ck.
  - eapply F2_map; [|exact rcl_reps0]. intros a a' []. ck.
    + apply ops_pre_rel; auto. + rewrite rpl_con0, rpl_exp0; auto. + rewrite rpl_con0; auto.
  - rewrite rcl_con0, rcl_exp0. auto.
  - rewrite rcl_con0; auto.
Qed.
Lemma sres_pre_rel {A B} (R : A -> B -> Prop) i r r' x b : srel R i r r' -> srel R i (sres_prepend x b r) (sres_prepend x b r').
Proof. destruct r, r'; simpl; auto. - apply ok_pre_rel. - apply er_pre_rel. Qed.
Lemma res_pre_rel {A B} (R : A -> B -> Prop) i r r' x b : rrel R i r r' -> rrel R i (res_prepend x b r) (res_prepend x b r').
Proof. destruct r, r'; simpl; auto. - apply ok_pre_rel. - apply er_pre_rel. - apply rc_pre_rel. Qed.

Lemma sres_ctx_rel {A B} (R : A -> B -> Prop) i r r' c1 c2 : crel i c1 c2 -> srel R i r r' -> srel R i (sres_set_ctx c1 r) (sres_set_ctx c2 r').
Proof.
  intros Hc. destruct r, r'; simpl; auto. intros [(j & P1 & P2 & P3 & P4 & P5) V E C]. ck.
  exists j. do 4 (split; auto). eapply crel_mono; eauto.
Qed.
Lemma res_ctx_rel {A B} (R : A -> B -> Prop) i r r' c1 c2 : crel i c1 c2 -> rrel R i r r' -> rrel R i (res_set_ctx c1 r) (res_set_ctx c2 r').
Proof.
  intros Hc. destruct r, r'; simpl; auto.
  - intros [(j & P1 & P2 & P3 & P4 & P5) V E C]. ck.
    exists j. do 4 (split; auto). eapply crel_mono; eauto.
  - intros []. ck. eapply F2_map; [|exact rcl_reps0]. intros a b []. ck.
    destruct rpl_pos0 as (j & P1 & P2 & P3 & P4 & P5). exists j. do 4 (split; auto). eapply crel_mono; eauto.
Qed.

Lemma ok_fmap_rel {A B A' B'} (R : A -> B -> Prop) (Q : A' -> B' -> Prop) i o o' f f' :
  (forall x y, R x y -> outrel Q (f x) (f' y)) -> okrel R i o o' -> outrel (okrel Q i) (ok_fmap f o) (ok_fmap f' o').
Proof. intros H [P V E C]. unfold ok_fmap. eapply out_bind; [apply H, V|]. intros a b Hab. ck. Qed.
Lemma sres_fmap_rel {A B A' B'} (R : A -> B -> Prop) (Q : A' -> B' -> Prop) i r r' f f' :
  (forall x y, R x y -> outrel Q (f x) (f' y)) -> srel R i r r' -> outrel (srel Q i) (sres_fmap f r) (sres_fmap f' r').
Proof.
  intros H. destruct r, r'; simpl; try contradiction; auto. intros Ho.
  eapply out_bind; [eapply ok_fmap_rel; eauto|]. auto.
Qed.
Lemma res_fmap_rel {A B A' B'} (R : A -> B -> Prop) (Q : A' -> B' -> Prop) i r r' f f' :
  (forall x y, R x y -> outrel Q (f x) (f' y)) -> rrel R i r r' -> outrel (rrel Q i) (res_fmap f r) (res_fmap f' r').
Proof.
  intros H. destruct r, r'; simpl; try contradiction; auto.
  - intros Ho. eapply out_bind; [eapply ok_fmap_rel; eauto|]. auto.
  - intros []. unfold rec_fmap.
    assert (K : outrel (recrel Q i) (rec_fmap f r) (rec_fmap f' r0)).
    { eapply out_bind; [|intros a b Hab; ck; exact Hab].
      eapply F2_mapM; [|exact rcl_reps0]. intros a b []. unfold rep_fmap.
      eapply out_bind; [apply H, rpl_val0|]. intros x y Hxy. ck. }
    eapply out_bind; [exact K|]. auto.
Qed.

(** ** continue_parse and join_repairs *)
Lemma cont_rel {A B A' B' A'' B''} (R : A -> B -> Prop) (Q : A' -> B' -> Prop) (S : A'' -> B'' -> Prop)
    i ra ra' ins F F' merge merge' :
  (forall x y, R x y -> forall i c1 c2 r, i <= N -> crel i c1 c2 ->
     outrel (rrel Q i) (F x (k1 + i) c1 r) (F' y (k2 + i) c2 r)) ->
  (forall x y x' y', R x y -> Q x' y' -> S (merge x x') (merge' y y')) ->
  recrel R i ra ra' -> outrel (rrel S i) (continue_parse ra ins F merge) (continue_parse ra' ins F' merge').
Proof.
  intros HF HM []. unfold continue_parse.
  eapply out_bind; [|intros a b Hab; simpl; ck; exact Hab].
  eapply F2_flat_mapM; [|exact rcl_reps0]. intros r r' []. unfold cont_one.
  destruct rpl_pos0 as (j & P1 & P2 & P3 & P4 & P5).
  eapply out_bind.
  { rewrite P3, P4, rpl_ins0. apply HF; eauto. }
  intros x y. destruct x, y; simpl; try contradiction; auto.
  - intros [(k & K1 & K2 & K3 & K4 & K5) W E C]. constructor; [|constructor]. ck.
    + rewrite P3, P4, K3, K4, rpl_ins0.
      replace (Nat.eqb (k2 + j) (k2 + k)) with (Nat.eqb (k1 + j) (k1 + k)); auto.
      destruct (Nat.eqb_spec (k1 + j) (k1 + k)), (Nat.eqb_spec (k2 + j) (k2 + k)); auto; lia.
    + exists k. split; [lia|auto].
    + unfold append_expected. rewrite E, C, rpl_exp0. auto.
    + congruence.
  - intros []. eapply F2_map; [|exact rcl_reps1]. intros a b [].
    destruct rpl_pos0 as (k & K1 & K2 & K3 & K4 & K5). ck.
    + unfold join_ops. apply F2_app.
      * eapply F2_map; [|exact rpl_ops0]. intros o o' []. ck.
      * rewrite rpl_exp0, rpl_con0. apply ops_pre_rel. auto.
    + exists k. split; [lia|auto].
    + unfold append_expected. rewrite rpl_con1, rpl_exp1, rpl_exp0. auto.
    + congruence.
Qed.
Lemma join_rel {A B} (R : A -> B -> Prop) i a a' b b' :
  recrel R i a a' -> recrel R i b b' -> recrel R i (join_repairs a b) (join_repairs a' b').
Proof.
  intros [Ra Ma La Xa Ca] [Rb Mb Lb Xb Cb]. unfold join_repairs. rewrite <- Ma, <- Mb, <- Ca, <- Cb, <- Xa, <- Xb.
  destruct (rc_min a) as [mp|].
  - assert (F : Forall2 (reprel R i) (rc_reps a ++ filter (fun r => match r_prio r with Some p => Nat.ltb p mp | None => false end) (rc_reps b))
      (rc_reps a' ++ filter (fun r => match r_prio r with Some p => Nat.ltb p mp | None => false end) (rc_reps b'))).
    { apply F2_app; auto. apply F2_filter; auto. intros x y []. rewrite rpl_prio0. auto. }
    destruct (rc_con a); [ck|]. destruct (rc_con b); ck.
  - assert (F : Forall2 (reprel R i) (rc_reps a ++ filter (fun r => match r_prio r with Some p => true | None => false end) (rc_reps b))
      (rc_reps a' ++ filter (fun r => match r_prio r with Some p => true | None => false end) (rc_reps b'))).
    { apply F2_app; auto. apply F2_filter; auto. intros x y []. rewrite rpl_prio0. auto. }
    destruct (rc_con a); [ck|]. destruct (rc_con b); ck.
Qed.

(** ** Primitives *)
Lemma tok_rel i : optrel RT (nth_error s1 (k1 + i)) (nth_error s2 (k2 + i)).
Proof.
  pose proof (F2_nth _ _ _ Hs i) as H.
  rewrite <- (firstn_skipn k1 s1) at 1. rewrite <- (firstn_skipn k2 s2) at 1.
  rewrite !nth_error_app2 by (rewrite firstn_length; lia). rewrite !firstn_length.
  replace (k1 + i - Init.Nat.min k1 (List.length s1)) with i by lia.
  replace (k2 + i - Init.Nat.min k2 (List.length s2)) with i by lia. exact H.
Qed.
Lemma skipn_rel i : Forall2 RT (skipn (k1 + i) s1) (skipn (k2 + i) s2).
Proof.
  replace (skipn (k1 + i) s1) with (skipn i (skipn k1 s1)) by (rewrite skipn_skipn; f_equal; lia).
  replace (skipn (k2 + i) s2) with (skipn i (skipn k2 s2)) by (rewrite skipn_skipn; f_equal; lia).
  apply F2_skipn. exact Hs.
Qed.
Lemma in_range i t : nth_error s1 (k1 + i) = Some t -> i < N.
Proof. intros H. assert (k1 + i < List.length s1) by (apply nth_error_Some; congruence). unfold N. lia. Qed.

Definition foundrel {X Y} (Q : nat -> X -> Y -> Prop) (i : nat) (x : nat * X) (y : nat * Y) : Prop :=
  exists j, i <= j /\ j < N /\ fst x = k1 + j /\ fst y = k2 + j /\ Q j (snd x) (snd y).
Lemma loop_rel {X Y} (Q : nat -> X -> Y -> Prop) P1 P2 :
  (forall i, i <= N -> outrel (optrel (Q i)) (P1 (k1 + i)) (P2 (k2 + i))) ->
  forall k i, k + i <= N -> outrel (optrel (foundrel Q i)) (skip_loop P1 k (k1 + i)) (skip_loop P2 k (k2 + i)).
Proof.
  intros H k. induction k as [|k IH]; intros i Hi; simpl; auto.
  eapply out_bind; [apply H; lia|]. intros x y. destruct x, y; simpl; try contradiction.
  - intros K. exists i. simpl. repeat split; auto; lia.
  - intros _. replace (S (k1 + i)) with (k1 + S i) by lia. replace (S (k2 + i)) with (k2 + S i) by lia.
    eapply out_weaken; [|apply IH; lia]. intros [|] [|]; simpl; auto.
    intros (j & J1 & J2). exists j. split; [lia|auto].
Qed.
Lemma search_rel {X Y} (Q : nat -> X -> Y -> Prop) P1 P2 i : i <= N ->
  (forall i, i <= N -> outrel (optrel (Q i)) (P1 (k1 + i)) (P2 (k2 + i))) ->
  outrel (optrel (foundrel Q (S i))) (skip_search s1 (k1 + i) P1) (skip_search s2 (k2 + i) P2).
Proof.
  intros Hi H. unfold skip_search. pose proof len1. pose proof len2.
  replace (List.length s2 - S (k2 + i)) with (List.length s1 - S (k1 + i)) by lia.
  replace (S (k1 + i)) with (k1 + S i) by lia. replace (S (k2 + i)) with (k2 + S i) by lia.
  destruct (Nat.eq_dec i N) as [->|].
  - replace (List.length s1 - (k1 + S N)) with 0 by lia. simpl. auto.
  - apply loop_rel; auto. lia.
Qed.

Definition tokrel (i : nat) (t : T1) (t' : T2) : Prop := i < N /\ RT t t'.
Lemma probe_tok_rel test test' i : (forall t t', RT t t' -> test t = test' t') ->
  outrel (optrel (tokrel i)) (probe_tok test s1 (k1 + i)) (probe_tok test' s2 (k2 + i)).
Proof.
  intros H. unfold probe_tok. pose proof (tok_rel i) as K. pose proof (in_range i) as L.
  destruct (nth_error s1 (k1 + i)), (nth_error s2 (k2 + i)); simpl in *; try contradiction; auto.
  rewrite (H _ _ K). destruct (test' t0) as [[]| |]; simpl; auto. split; eauto.
Qed.
Lemma probe_sym_rel teq teq' x x' i : (forall t t', RT t t' -> teq t x = teq' t' x') ->
  outrel (optrel (tokrel i)) (probe_sym teq x s1 (k1 + i)) (probe_sym teq' x' s2 (k2 + i)).
Proof.
  intros H. unfold probe_sym. pose proof (tok_rel i) as K. pose proof (in_range i) as L.
  destruct (nth_error s1 (k1 + i)), (nth_error s2 (k2 + i)); simpl in *; try contradiction; auto.
  rewrite (H _ _ K). destruct (teq' t0 x'); simpl; auto. split; eauto.
Qed.
Lemma starts_rel teq teq' x x' i :
  Forall2 (fun a a' => RT a a' /\ forall t t', RT t t' -> teq t a = teq' t' a') x x' ->
  starts_with teq x s1 (k1 + i) = starts_with teq' x' s2 (k2 + i) /\
  (starts_with teq x s1 (k1 + i) = true -> i <= N -> i + List.length x <= N).
Proof.
  intros H. unfold starts_with. pose proof (skipn_rel i) as K.
  assert (L : List.length (skipn (k1 + i) s1) = N - i) by (rewrite skipn_length; unfold N; lia).
  assert (P : is_prefix teq x (skipn (k1 + i) s1) = is_prefix teq' x' (skipn (k2 + i) s2) /\
    (is_prefix teq x (skipn (k1 + i) s1) = true -> List.length x <= List.length (skipn (k1 + i) s1))).
  { clear L. revert K. generalize (skipn (k1 + i) s1) (skipn (k2 + i) s2). intros l m K. revert l m K.
    induction H as [|a a' x x' [Ha Ht] Hx IH]; intros l m K; simpl; [split; auto; lia|].
    destruct K as [|b b' l m Hb K]; simpl; [split; auto; discriminate|].
    destruct (IH l m K) as [I1 I2]. rewrite (Ht b b' Hb), I1. split; auto.
    intros W. apply andb_true_iff in W as [_ W]. rewrite <- I1 in W. apply I2 in W. lia. }
  destruct P as [P1 P2]. split; auto. intros W Hi. apply P2 in W. lia.
Qed.
Lemma re_rel {A B} (R : A -> B -> Prop) m m' i : i <= N ->
  (forall i, k1 + i <= List.length s1 -> matchrel s1 k1 k2 R i (m s1 (k1 + i)) (m' s2 (k2 + i))) ->
  optrel (fun x y => exists j, i <= j /\ j <= N /\ fst x = k1 + j /\ fst y = k2 + j /\ R (snd x) (snd y))
    (probe_re m s1 (k1 + i)) (probe_re m' s2 (k2 + i)).
Proof.
  intros Hi H. specialize (H i ltac:(unfold N in *; lia)). unfold probe_re.
  destruct (m s1 (k1 + i)) as [[e [v|]]|], (m' s2 (k2 + i)) as [[e' [v'|]]|]; simpl in *; try contradiction; auto.
  - destruct H as (j & J1 & J2 & J3 & J4 & J5). exists j. unfold N. repeat split; auto. lia.
  - destruct H as (j & J1 & J2 & J3 & J4 & J5). auto.
  - destruct H as (j & J1 & J2 & J3 & J4 & J5). auto.
Qed.

Lemma ok_here {A B} (R : A -> B -> Prop) i j c1 c2 v v' X b : i <= j -> j <= N -> crel j c1 c2 -> R v v' ->
  okrel R i (Ok v (k1 + j) c1 X b) (Ok v' (k2 + j) c2 X b).
Proof. intros. constructor; simpl; auto. exists j. auto. Qed.
Lemma er_here i c1 c2 X b : i <= N -> crel i c1 c2 -> errel (Err (get_loc c1 s1 (k1 + i)) X b) (Err (get_loc c2 s2 (k2 + i)) X b).
Proof. intros. constructor; simpl; auto. apply crel_loc; auto. Qed.
Lemma skip_here {A B} (R : A -> B -> Prop) i j c1 c2 l l' ins v v' d X : i <= j -> j <= N -> crel j c1 c2 -> R v v' -> lrel l l' ->
  reprel R i (make_skip ins v (k1 + j) c1 l d X) (make_skip ins v' (k2 + j) c2 l' d X).
Proof.
  intros. constructor; simpl; auto.
  - constructor; [|constructor]. constructor; simpl; auto.
  - exists j. auto.
Qed.
Lemma insert_here {A B} (R : A -> B -> Prop) i c1 c2 l l' m v v' lab X : i <= N -> crel i c1 c2 -> R v v' -> lrel l l' ->
  reprel R i (make_insert m v (k1 + i) c1 l lab X) (make_insert m v' (k2 + i) c2 l' lab X).
Proof.
  intros. constructor; simpl; auto.
  - constructor; [|constructor]. constructor; simpl; auto.
  - exists i. auto.
Qed.
Lemma uinsert_here {A B} (R : A -> B -> Prop) i c1 c2 l l' m v v' lab X : i <= N -> crel i c1 c2 -> R v v' -> lrel l l' ->
  reprel R i (make_user_insert m v (k1 + i) c1 l lab X) (make_user_insert m v' (k2 + i) c2 l' lab X).
Proof.
  intros. constructor; simpl; auto.
  - constructor; [|constructor]. constructor; simpl; auto.
  - exists i. auto.
Qed.

Lemma satisfy_f test test' : (forall t t', RT t t' -> test t = test' t') -> frel RT (satisfy_fast test) (satisfy_fast test').
Proof.
  intros H i c1 c2 Hi Hc. unfold satisfy_fast. eapply out_bind; [apply probe_tok_rel, H|].
  intros x y. destruct x, y; simpl; try contradiction.
  - intros [L K]. rewrite <- !Nat.add_assoc. apply ok_here; auto; try lia. eapply crel_mono; eauto. lia.
  - intros _. apply er_here; auto.
Qed.
Lemma satisfy_p test test' : (forall t t', RT t t' -> test t = test' t') -> prel RT (satisfy_full test) (satisfy_full test').
Proof.
  intros H i c1 c2 ins rem Hi Hc. unfold satisfy_full. eapply out_bind; [apply probe_tok_rel, H|].
  intros x y. destruct x, y; simpl; try contradiction.
  - intros [L K]. rewrite <- !Nat.add_assoc. apply ok_here; auto; try lia. eapply crel_mono; eauto. lia.
  - intros _. destruct rem as [m|]; [|apply er_here; auto].
    eapply out_bind; [apply search_rel; auto; intros; apply probe_tok_rel, H|].
    intros [[cur t]|] [[cur' t']|]; simpl; try contradiction; [|intros _; apply er_here; auto].
    intros (j & J1 & J2 & J3 & J4 & J5 & J6). simpl in *. subst cur cur'.
    replace (k1 + j - (k1 + i)) with (j - i) by lia. replace (k2 + j - (k2 + i)) with (j - i) by lia.
    constructor; simpl; auto; [|apply crel_loc; auto]. constructor; [|constructor].
    rewrite <- !Nat.add_assoc. apply skip_here; auto; try lia; [|apply crel_loc; auto].
    eapply crel_upd; eauto; lia.
Qed.
Lemma sym_f teq teq' x x' l : (forall t t', RT t t' -> teq t x = teq' t' x') -> frel RT (sym_fast teq x l) (sym_fast teq' x' l).
Proof.
  intros H i c1 c2 Hi Hc. unfold sym_fast. eapply out_bind; [apply probe_sym_rel, H|].
  intros a b. destruct a, b; simpl; try contradiction.
  - intros [L K]. rewrite <- !Nat.add_assoc. apply ok_here; auto; try lia. eapply crel_mono; eauto. lia.
  - intros _. apply er_here; auto.
Qed.
Lemma sym_p teq teq' x x' l : (forall t t', RT t t' -> teq t x = teq' t' x') -> RT x x' -> prel RT (sym_full teq x l) (sym_full teq' x' l).
Proof.
  intros H Hx i c1 c2 ins rem Hi Hc. unfold sym_full. eapply out_bind; [apply probe_sym_rel, H|].
  intros a b. destruct a, b; simpl; try contradiction.
  - intros [L K]. rewrite <- !Nat.add_assoc. apply ok_here; auto; try lia. eapply crel_mono; eauto. lia.
  - intros _. destruct rem as [m|]; [|apply er_here; auto].
    assert (HI : Forall2 (reprel RT i)
      (if Z.eqb m 0 then [] else [make_insert m x (k1 + i) c1 (get_loc c1 s1 (k1 + i)) l [l]])
      (if Z.eqb m 0 then [] else [make_insert m x' (k2 + i) c2 (get_loc c2 s2 (k2 + i)) l [l]])).
    { destruct (Z.eqb m 0); constructor; auto. apply insert_here; auto. apply crel_loc; auto. }
    eapply out_bind; [apply search_rel; auto; intros; apply probe_sym_rel, H|].
    intros [[cur t]|] [[cur' t']|]; simpl; try contradiction.
    + intros (j & J1 & J2 & J3 & J4 & J5 & J6). simpl in *. subst cur cur'.
      replace (k1 + j - (k1 + i)) with (j - i) by lia. replace (k2 + j - (k2 + i)) with (j - i) by lia.
      constructor; simpl; auto; [|apply crel_loc; auto]. apply F2_app; auto. constructor; [|constructor].
      rewrite <- !Nat.add_assoc. apply skip_here; auto; try lia; [|apply crel_loc; auto].
      eapply crel_upd; eauto; lia.
    + intros _. constructor; simpl; auto. apply crel_loc; auto.
Qed.
Lemma lit_val (teq : T1 -> T1 -> bool) (teq' : T2 -> T2 -> bool) x x' : Forall2 (fun a a' => RT a a' /\ forall t t', RT t t' -> teq t a = teq' t' a') x x' ->
  Forall2 RT x x'.
Proof. apply F2_impl. tauto. Qed.
Lemma literal_f teq teq' x x' l : Forall2 (fun a a' => RT a a' /\ forall t t', RT t t' -> teq t a = teq' t' a') x x' ->
  frel (Forall2 RT) (literal_fast teq x l) (literal_fast teq' x' l).
Proof.
  intros H i c1 c2 Hi Hc. unfold literal_fast. destruct (starts_rel _ _ _ _ i H) as [K1 K2]. rewrite <- K1.
  rewrite <- (F2_len _ _ _ H). destruct (starts_with teq x s1 (k1 + i)); simpl; [|apply er_here; auto].
  specialize (K2 eq_refl Hi). rewrite <- !Nat.add_assoc.
  apply ok_here; auto; try lia; [eapply crel_upd; eauto; lia|]. eapply lit_val; eauto.
Qed.
Lemma literal_p teq teq' x x' l : Forall2 (fun a a' => RT a a' /\ forall t t', RT t t' -> teq t a = teq' t' a') x x' ->
  prel (Forall2 RT) (literal_full teq x l) (literal_full teq' x' l).
Proof.
  intros H i c1 c2 ins rem Hi Hc. unfold literal_full. destruct (starts_rel _ _ _ _ i H) as [K1 K2]. rewrite <- K1.
  pose proof (lit_val _ _ _ _ H) as HV.
  rewrite <- (F2_len _ _ _ H). destruct (starts_with teq x s1 (k1 + i)); simpl.
  { specialize (K2 eq_refl Hi). rewrite <- !Nat.add_assoc.
    apply ok_here; auto; try lia. eapply crel_upd; eauto; lia. }
  destruct rem as [m|]; [|apply er_here; auto].
  assert (HI : Forall2 (reprel (Forall2 RT) i)
    (if Z.eqb m 0 then [] else [make_insert m x (k1 + i) c1 (get_loc c1 s1 (k1 + i)) l [l]])
    (if Z.eqb m 0 then [] else [make_insert m x' (k2 + i) c2 (get_loc c2 s2 (k2 + i)) l [l]])).
  { destruct (Z.eqb m 0); constructor; auto. apply insert_here; auto. apply crel_loc; auto. }
  eapply out_bind.
  { apply (search_rel (fun j (_ _ : unit) => j + List.length x <= N)); auto. intros j Hj. unfold probe_lit.
    destruct (starts_rel _ _ _ _ j H) as [L1 L2]. rewrite <- L1. destruct (starts_with teq x s1 (k1 + j)); simpl; auto. }
  intros [[cur t]|] [[cur' t']|]; simpl; try contradiction.
  - intros (j & J1 & J2 & J3 & J4 & J5). simpl in *. subst cur cur'.
    replace (k1 + j - (k1 + i)) with (j - i) by lia. replace (k2 + j - (k2 + i)) with (j - i) by lia.
    constructor; simpl; auto; [|apply crel_loc; auto]. apply F2_app; auto. constructor; [|constructor].
    rewrite <- !Nat.add_assoc. apply skip_here; auto; try lia; [|apply crel_loc; auto].
    eapply crel_upd; eauto; lia.
  - intros _. constructor; simpl; auto. apply crel_loc; auto.
Qed.
Lemma eqb_shift i j : Nat.eqb (k1 + i) (k1 + j) = Nat.eqb (k2 + i) (k2 + j).
Proof. destruct (Nat.eqb_spec (k1 + i) (k1 + j)), (Nat.eqb_spec (k2 + i) (k2 + j)); auto; lia. Qed.
Lemma regexp_f {A B} (R : A -> B -> Prop) m m' :
  (forall i, k1 + i <= List.length s1 -> matchrel s1 k1 k2 R i (m s1 (k1 + i)) (m' s2 (k2 + i))) ->
  frel R (regexp_fast m) (regexp_fast m').
Proof.
  intros H i c1 c2 Hi Hc. unfold regexp_fast. pose proof (re_rel R m m' i Hi H) as K.
  destruct (probe_re m s1 (k1 + i)) as [[e v]|], (probe_re m' s2 (k2 + i)) as [[e' v']|]; simpl in *; try contradiction.
  - destruct K as (j & J1 & J2 & -> & -> & J5). rewrite (eqb_shift j i). apply ok_here; auto. eapply crel_upd; eauto.
  - apply er_here; auto.
Qed.
Lemma regexp_p {A B} (R : A -> B -> Prop) m m' :
  (forall i, k1 + i <= List.length s1 -> matchrel s1 k1 k2 R i (m s1 (k1 + i)) (m' s2 (k2 + i))) ->
  prel R (regexp_full m) (regexp_full m').
Proof.
  intros H i c1 c2 ins rem Hi Hc. unfold regexp_full. pose proof (re_rel R m m' i Hi H) as K.
  destruct (probe_re m s1 (k1 + i)) as [[e v]|], (probe_re m' s2 (k2 + i)) as [[e' v']|]; simpl in *; try contradiction.
  { destruct K as (j & J1 & J2 & -> & -> & J5). rewrite (eqb_shift j i). apply ok_here; auto. eapply crel_upd; eauto. }
  destruct rem as [r|]; [|apply er_here; auto].
  eapply out_bind.
  { apply (search_rel (fun i (x : nat * A) (y : nat * B) =>
      exists j, i <= j /\ j <= N /\ fst x = k1 + j /\ fst y = k2 + j /\ R (snd x) (snd y))); auto.
    intros j Hj. simpl. apply re_rel; auto. }
  intros [[cur [e v]]|] [[cur' [e' v']]|]; simpl; try contradiction; [|intros _; apply er_here; auto].
  intros (j & J1 & J2 & J3 & J4 & (k & I1 & I2 & I3 & I4 & I5)). simpl in *. subst cur cur' e e'.
  replace (k1 + j - (k1 + i)) with (j - i) by lia. replace (k2 + j - (k2 + i)) with (j - i) by lia.
  constructor; simpl; auto; [|apply crel_loc; auto]. constructor; [|constructor].
  apply skip_here; auto; try lia; [|apply crel_loc; auto]. eapply crel_upd; eauto; lia.
Qed.
Lemma eof_f : frel eq eof_fast eof_fast.
Proof.
  intros i c1 c2 Hi Hc. unfold eof_fast. rewrite len1, len2, (eqb_shift i N).
  destruct (Nat.eqb (k2 + i) (k2 + N)); simpl; [apply ok_here; auto|apply er_here; auto].
Qed.
Lemma eof_p : prel eq eof_full eof_full.
Proof.
  intros i c1 c2 ins rem Hi Hc. unfold eof_full. rewrite len1, len2, (eqb_shift i N).
  destruct (Nat.eqb (k2 + i) (k2 + N)); simpl; [apply ok_here; auto|].
  destruct rem; simpl; [|apply er_here; auto].
  replace (k1 + N - (k1 + i)) with (N - i) by lia. replace (k2 + N - (k2 + i)) with (N - i) by lia.
  constructor; simpl; auto; [|apply crel_loc; auto]. constructor; [|constructor].
  constructor; simpl; auto.
  - constructor; [|constructor]. constructor; simpl; auto. apply crel_loc; auto.
  - exists N. repeat split; auto; try apply (crel_mono i N c1 c2 Hc Hi).
Qed.

(** ** Combinators *)
Lemma frel_at {A B} (R : A -> B -> Prop) p q i x c1 y c2 : frel R p q -> i <= N -> crel i c1 c2 ->
  x = k1 + i -> y = k2 + i -> outrel (srel R i) (p s1 x c1) (q s2 y c2).
Proof. intros H Hi Hc -> ->. apply H; auto. Qed.
Lemma prel_at {A B} (R : A -> B -> Prop) p q i x c1 y c2 ins rem : prel R p q -> i <= N -> crel i c1 c2 ->
  x = k1 + i -> y = k2 + i -> outrel (rrel R i) (p s1 x c1 ins rem) (q s2 y c2 ins rem).
Proof. intros H Hi Hc -> ->. apply H; auto. Qed.

Lemma alt_f {A B} (R : A -> B -> Prop) p p' q q' : frel R p p' -> frel R q q' -> frel R (alt_fast p q) (alt_fast p' q').
Proof.
  intros Hp Hq i c1 c2 Hi Hc. unfold alt_fast. eapply out_bind; [apply Hp; auto|].
  intros [o|e] [o'|e']; simpl; try contradiction; auto. intros [L X C]. rewrite <- C.
  destruct (er_con e) eqn:K; simpl; [constructor; auto; congruence|].
  eapply out_bind; [apply Hq; auto|]. intros b b' Hb. rewrite <- (srel_con _ _ _ _ Hb).
  destruct (sres_con b) eqn:Kb; simpl; auto.
  destruct b as [ob|eb], b' as [ob'|eb']; simpl in *; try contradiction.
  - rewrite X, (okl_exp _ _ _ _ Hb). apply ok_exp_rel. exact Hb.
  - destruct Hb. constructor; simpl; auto. congruence.
Qed.
Lemma alt_recover_p {A B} (R : A -> B -> Prop) p p' q q' la la' X : prel R p p' -> prel R q q' -> lrel la la' ->
  prel R (alt_recover p q la X) (alt_recover p' q' la' X).
Proof.
  intros Hp Hq Hl i c1 c2 ins rem Hi Hc. unfold alt_recover. destruct rem as [m|]; [|constructor; auto].
  eapply out_bind; [apply Hp; auto|]. intros a a' Ha.
  eapply out_bind; [apply Hq; auto|]. intros b b' Hb.
  assert (HE' : rrel R i (RErr (Err la X false)) (RErr (Err la' X false))) by (constructor; auto).
  destruct a as [oa|ea|ra], a' as [oa'|ea'|ra']; simpl in Ha; try contradiction;
    destruct b as [ob|eb|rb], b' as [ob'|eb'|rb']; simpl in Hb; try contradiction; simpl; auto;
    try (apply rc_exp_rel; auto).
  apply join_rel; auto.
Qed.
Lemma alt_p {A B} (R : A -> B -> Prop) p p' q q' : prel R p p' -> prel R q q' -> prel R (alt_full p q) (alt_full p' q').
Proof.
  intros Hp Hq i c1 c2 ins rem Hi Hc. unfold alt_full. eapply out_bind; [apply Hp; auto|].
  assert (HT : forall la la' xa, lrel la la' ->
    outrel (rrel R i)
      (rb <- q s1 (k1 + i) c1 ins None ;;
          if res_con rb then Ret rb
          else
            let expected := Append xa (res_exp rb) in
            match rb with
            | ROk ob => Ret (ROk (ok_set_exp expected ob))
            | _ => alt_recover p q la expected s1 (k1 + i) c1 ins rem
            end)
      (rb <- q' s2 (k2 + i) c2 ins None ;;
          if res_con rb then Ret rb
          else
            let expected := Append xa (res_exp rb) in
            match rb with
            | ROk ob => Ret (ROk (ok_set_exp expected ob))
            | _ => alt_recover p' q' la' expected s2 (k2 + i) c2 ins rem
            end)).
  { intros la la' xa Hl. eapply out_bind; [apply Hq; auto|]. intros b b' Hb.
    rewrite <- (rrel_con _ _ _ _ Hb). destruct (res_con b) eqn:Kb; simpl; auto.
    rewrite <- (rrel_exp _ _ _ _ Hb).
    destruct b as [ob|eb|rb], b' as [ob'|eb'|rb']; simpl in Hb; try contradiction.
    - apply ok_exp_rel. exact Hb.
    - apply alt_recover_p; auto.
    - apply alt_recover_p; auto. }
  intros [o|[la xa ca]|[ra ma la xa ca]] [o'|[la' xa' ca']|[ra' ma' la' xa' ca']]; simpl; try contradiction; auto.
  - intros H. destruct H as [L X C]. simpl in L, X, C. subst xa' ca'. destruct ca; simpl; [constructor; auto|]. apply HT; auto.
  - intros H. pose proof H as H0. destruct H as [F M L X C]. simpl in L, X, C. subst xa' ca'. destruct ca; simpl; [exact H0|]. apply HT; auto.
Qed.

Lemma ok_then {A B A' B'} (R : A -> B -> Prop) (Q : A' -> B' -> Prop) i o o' F F' X b X' b' :
  okrel R i o o' -> X = X' -> b = b' ->
  (forall j, i <= j -> j <= N -> ok_pos o = k1 + j -> ok_pos o' = k2 + j -> crel j (ok_ctx o) (ok_ctx o') ->
     R (ok_val o) (ok_val o') -> outrel (srel Q j) F F') ->
  outrel (srel Q i) (rb <- F ;; Ret (sres_prepend X b rb)) (rb <- F' ;; Ret (sres_prepend X' b' rb)).
Proof.
  intros [(j & J1 & J2 & J3 & J4 & J5) V E C] <- <- H. eapply out_bind; [eapply H; eauto|].
  intros x y Hxy. simpl. apply sres_pre_rel. eapply srel_weak; [|exact J1|exact Hxy]. auto.
Qed.
Lemma ok_thenp {A B A' B'} (R : A -> B -> Prop) (Q : A' -> B' -> Prop) i o o' F F' X b X' b' :
  okrel R i o o' -> X = X' -> b = b' ->
  (forall j, i <= j -> j <= N -> ok_pos o = k1 + j -> ok_pos o' = k2 + j -> crel j (ok_ctx o) (ok_ctx o') ->
     R (ok_val o) (ok_val o') -> outrel (rrel Q j) F F') ->
  outrel (rrel Q i) (rb <- F ;; Ret (res_prepend X b rb)) (rb <- F' ;; Ret (res_prepend X' b' rb)).
Proof.
  intros [(j & J1 & J2 & J3 & J4 & J5) V E C] <- <- H. eapply out_bind; [eapply H; eauto|].
  intros x y Hxy. simpl. apply res_pre_rel. eapply rrel_weak; [|exact J1|exact Hxy]. auto.
Qed.
Lemma bind_f {A B A' B'} (R : A -> B -> Prop) (Q : A' -> B' -> Prop) p p' f f' :
  frel R p p' -> (forall x y, R x y -> frel Q (f x) (f' y)) -> frel Q (bind_fast p f) (bind_fast p' f').
Proof.
  intros Hp Hf i c1 c2 Hi Hc. unfold bind_fast. eapply out_bind; [apply Hp; auto|].
  intros [o|e] [o'|e']; simpl; try contradiction; auto. intros Ho.
  eapply ok_then; [exact Ho|apply Ho|apply Ho|]. intros. apply frel_at; auto.
Qed.
Lemma bind_p {A B A' B'} (R : A -> B -> Prop) (Q : A' -> B' -> Prop) p p' f f' :
  prel R p p' -> (forall x y, R x y -> prel Q (f x) (f' y)) -> prel Q (bind_full p f) (bind_full p' f').
Proof.
  intros Hp Hf i c1 c2 ins rem Hi Hc. unfold bind_full. eapply out_bind; [apply Hp; auto|].
  intros [o|e|r] [o'|e'|r']; simpl; try contradiction; auto.
  - intros Ho. rewrite <- (okl_con _ _ _ _ Ho).
    destruct (ok_con o) eqn:K; (eapply ok_thenp; [exact Ho|apply Ho|reflexivity|]; intros; apply prel_at; auto).
  - intros Hr. eapply (cont_rel R Q Q); [| |exact Hr]; [|auto].
    intros x y Hxy j d1 d2 m Hj Hd. apply prel_at; auto.
Qed.
Lemma seq_f {A B A' B' A'' B''} (R : A -> B -> Prop) (Q : A' -> B' -> Prop) (S : A'' -> B'' -> Prop) p p' q q' m m' :
  frel R p p' -> frel Q q q' -> (forall x y x' y', R x y -> Q x' y' -> S (m x x') (m' y y')) ->
  frel S (seq_fast p q m) (seq_fast p' q' m').
Proof.
  intros Hp Hq Hm i c1 c2 Hi Hc. unfold seq_fast. eapply out_bind; [apply Hp; auto|].
  intros [o|e] [o'|e']; simpl; try contradiction; auto. intros Ho.
  assert (K : outrel (srel S i) 
    (rb <- (rb <- q s1 (ok_pos o) (ok_ctx o) ;; sres_fmap (fun vb => Ret (m (ok_val o) vb)) rb) ;; Ret (sres_prepend (ok_exp o) (ok_con o) rb))
    (rb <- (rb <- q' s2 (ok_pos o') (ok_ctx o') ;; sres_fmap (fun vb => Ret (m' (ok_val o') vb)) rb) ;; Ret (sres_prepend (ok_exp o') (ok_con o') rb))).
  { eapply ok_then; [exact Ho|apply Ho|apply Ho|]. intros j J1 J2 J3 J4 J5 J6.
    eapply out_bind; [apply (frel_at Q _ _ j); auto|]. intros x y Hxy.
    apply (sres_fmap_rel Q); auto. intros; simpl; auto. }
  destruct (q s1 (ok_pos o) (ok_ctx o)), (q' s2 (ok_pos o') (ok_ctx o')); exact K.
Qed.
Lemma seq_p {A B A' B' A'' B''} (R : A -> B -> Prop) (Q : A' -> B' -> Prop) (S : A'' -> B'' -> Prop) p p' q q' m m' :
  prel R p p' -> prel Q q q' -> (forall x y x' y', R x y -> Q x' y' -> S (m x x') (m' y y')) ->
  prel S (seq_full p q m) (seq_full p' q' m').
Proof.
  intros Hp Hq Hm i c1 c2 ins rem Hi Hc. unfold seq_full. eapply out_bind; [apply Hp; auto|].
  intros [o|e|r] [o'|e'|r']; simpl; try contradiction; auto.
  - intros Ho. rewrite <- (okl_con _ _ _ _ Ho). generalize (if ok_con o then Some ins else rem). intros rm.
    assert (K : outrel (rrel S i)
      (rb <- (rb <- q s1 (ok_pos o) (ok_ctx o) ins rm ;; res_fmap (fun vb => Ret (m (ok_val o) vb)) rb) ;; Ret (res_prepend (ok_exp o) (ok_con o) rb))
      (rb <- (rb <- q' s2 (ok_pos o') (ok_ctx o') ins rm ;; res_fmap (fun vb => Ret (m' (ok_val o') vb)) rb) ;; Ret (res_prepend (ok_exp o') (ok_con o) rb))).
    { eapply ok_thenp; [exact Ho|apply Ho|reflexivity|]. intros j J1 J2 J3 J4 J5 J6.
      eapply out_bind; [apply (prel_at Q _ _ j); auto|]. intros x y Hxy.
      apply (res_fmap_rel Q); auto. intros; simpl; auto. }
    destruct (q s1 (ok_pos o) (ok_ctx o) ins rm), (q' s2 (ok_pos o') (ok_ctx o') ins rm); exact K.
  - intros Hr. eapply (cont_rel R Q S); [| |exact Hr]; [|auto].
    intros x y Hxy j d1 d2 r0 Hj Hd. apply prel_at; auto.
Qed.
Lemma maybe_f {A B} (R : A -> B -> Prop) p p' : frel R p p' -> frel (optrel R) (maybe_fast p) (maybe_fast p').
Proof.
  intros Hp i c1 c2 Hi Hc. unfold maybe_fast. eapply out_bind; [apply Hp; auto|].
  intros [o|e] [o'|e'] H; simpl in H; try contradiction.
  - apply (sres_fmap_rel R); auto.
  - destruct H as [L X C]. rewrite <- C, <- X. destruct (er_con e) eqn:K; simpl; [constructor; congruence|].
    apply ok_here; simpl; auto.
Qed.
Lemma maybe_p {A B} (R : A -> B -> Prop) p p' : prel R p p' -> prel (optrel R) (maybe_full p) (maybe_full p').
Proof.
  intros Hp i c1 c2 ins rem Hi Hc. unfold maybe_full. eapply out_bind; [apply Hp; auto|].
  intros a b H. pose proof (rrel_con _ _ _ _ H) as KC. pose proof (rrel_exp _ _ _ _ H) as KX.
  assert (F : outrel (rrel (optrel R) i) (res_fmap (fun v => Ret (Some v)) a) (res_fmap (fun v => Ret (Some v)) b)).
  { apply (res_fmap_rel R); auto. }
  assert (G : outrel (rrel (optrel R) i)
    (if res_con a then res_fmap (fun v => Ret (Some v)) a else Ret (ROk (Ok None (k1 + i) c1 (res_exp a) false)))
    (if res_con b then res_fmap (fun v => Ret (Some v)) b else Ret (ROk (Ok None (k2 + i) c2 (res_exp b) false)))).
  { rewrite <- KC, <- KX. destruct (res_con a); auto. apply ok_here; simpl; auto. }
  destruct a as [o|e|r], b as [o'|e'|r']; simpl in H; try contradiction; auto.
Qed.
Lemma many_f {A B} (R : A -> B -> Prop) p p' : frel R p p' -> forall n con vs vs' i c1 c2,
  Forall2 R vs vs' -> i <= N -> crel i c1 c2 ->
  outrel (srel (Forall2 R) i) (many_fast p n con vs s1 (k1 + i) c1) (many_fast p' n con vs' s2 (k2 + i) c2).
Proof.
  intros Hp n. induction n as [|n IH]; intros con vs vs' i c1 c2 Hv Hi Hc; simpl; auto.
  eapply out_bind; [apply Hp; auto|]. intros [o|e] [o'|e']; simpl; try contradiction.
  - intros [(j & J1 & J2 & J3 & J4 & J5) V X C]. rewrite <- C. destruct (ok_con o); [|reflexivity].
    rewrite J3, J4. eapply out_weaken; [|apply IH; eauto; apply F2_app; auto].
    intros a b. apply srel_weak; auto.
  - intros [L X C]. rewrite <- C, <- X. destruct (er_con e) eqn:K; simpl; [constructor; congruence|].
    apply ok_here; auto.
Qed.
Lemma many_p {A B} (R : A -> B -> Prop) p p' : prel R p p' -> forall n con vs vs' i c1 c2 ins,
  Forall2 R vs vs' -> i <= N -> crel i c1 c2 ->
  outrel (rrel (Forall2 R) i) (many_full p n con vs s1 (k1 + i) c1 ins) (many_full p' n con vs' s2 (k2 + i) c2 ins).
Proof.
  intros Hp n. induction n as [|n IH]; intros con vs vs' i c1 c2 ins Hv Hi Hc; simpl; auto.
  eapply out_bind; [apply Hp; auto|]. intros [o|e|r] [o'|e'|r']; simpl; try contradiction.
  - intros [(j & J1 & J2 & J3 & J4 & J5) V X C]. rewrite <- C. destruct (ok_con o); [|reflexivity].
    rewrite J3, J4. eapply out_weaken; [|apply IH; eauto; apply F2_app; auto].
    intros a b. apply rrel_weak; auto.
  - intros [L X C]. rewrite <- C, <- X. destruct (er_con e) eqn:K; simpl; [constructor; congruence|].
    apply ok_here; auto.
  - intros Hr. eapply (cont_rel R (Forall2 R) (Forall2 R)); [| |exact Hr].
    + intros x y Hxy j d1 d2 r0 Hj Hd. apply IH; auto.
    + intros x y l l' Hxy Hl. apply F2_app; auto.
Qed.
Lemma attempt_f {A B} (R : A -> B -> Prop) p p' : frel R p p' -> frel R (attempt_fast p) (attempt_fast p').
Proof.
  intros Hp i c1 c2 Hi Hc. unfold attempt_fast. eapply out_bind; [apply Hp; auto|].
  intros [o|e] [o'|e']; simpl; try contradiction; auto. intros []. constructor; auto.
Qed.
Lemma attempt_p {A B} (R : A -> B -> Prop) f f' p p' : frel R f f' -> prel R p p' -> prel R (attempt_full f p) (attempt_full f' p').
Proof.
  intros Hf Hp i c1 c2 ins rem Hi Hc. unfold attempt_full. destruct rem; [apply Hp; auto|].
  eapply out_bind; [apply Hf; auto|].
  intros [o|e] [o'|e']; simpl; try contradiction; auto. intros []. constructor; auto.
Qed.
Lemma recover_p {A B} (R : A -> B -> Prop) p p' : prel R p p' -> prel R (recover_full p) (recover_full p').
Proof.
  intros Hp i c1 c2 ins rem Hi Hc. unfold recover_full. eapply out_bind; [apply Hp; auto|].
  intros [o|e|r] [o'|e'|r']; simpl; try contradiction; auto. intros []. constructor; simpl; auto.
  eapply F2_map; [|exact rcl_reps0]. intros x y []. constructor; simpl; auto. rewrite rpl_prio0. auto.
Qed.
Lemma with_p {A B} (R : A -> B -> Prop) p p' fn fn' lab lab' : prel R p p' ->
  (forall i, i <= N -> outrel (fun x y => R x y /\ lab x = lab' y) (fn s1 (k1 + i)) (fn' s2 (k2 + i))) ->
  prel R (recover_with_full p fn lab) (recover_with_full p' fn' lab').
Proof.
  intros Hp Hf i c1 c2 ins rem Hi Hc. unfold recover_with_full. destruct rem as [m|]; [|apply Hp; auto].
  eapply out_bind; [apply Hp; auto|]. intros a b H.
  pose proof (rrel_con _ _ _ _ H) as KC. pose proof (rrel_exp _ _ _ _ H) as KX.
  destruct a as [o|e|r], b as [o'|e'|r']; simpl in H; try contradiction; auto; rewrite <- KC, <- KX.
  - destruct (res_con _); auto. destruct (Z.eqb m 0); auto.
    eapply out_bind; [apply Hf; auto|]. intros x y [Hxy Hl]. simpl. rewrite <- Hl.
    constructor; simpl; auto; [|apply crel_loc; auto].
    constructor; [|constructor]. apply uinsert_here; auto. apply crel_loc; auto.
  - destruct (res_con _); auto. destruct (Z.eqb m 0); auto.
    eapply out_bind; [apply Hf; auto|]. intros x y [Hxy Hl]. simpl. rewrite <- Hl.
    destruct H. constructor; simpl; auto; [|apply crel_loc; auto].
    constructor; [|auto]. apply uinsert_here; auto. apply crel_loc; auto.
Qed.

Lemma eqb_marks (a b c d : Z) : a = (b + D)%Z -> c = (d + D)%Z -> Z.eqb a c = Z.eqb b d.
Proof. intros -> ->. destruct (Z.eqb_spec (b + D) (d + D)), (Z.eqb_spec b d); auto; lia. Qed.
Lemma block_f {A B} (R : A -> B -> Prop) p p' : lay -> frel R p p' -> frel R (block_fast p) (block_fast p').
Proof.
  intros L Hp i c1 c2 Hi Hc. unfold block_fast.
  pose proof (crel_upd i i _ _ Hc ltac:(auto) Hi) as Hu. destruct (crel_col _ _ _ L Hc Hi) as [H1 H2].
  eapply out_bind; [apply Hp; auto; apply crel_mark; auto|]. intros x y. apply sres_ctx_rel. auto.
Qed.
Lemma block_p {A B} (R : A -> B -> Prop) p p' : lay -> prel R p p' -> prel R (block_full p) (block_full p').
Proof.
  intros L Hp i c1 c2 ins rem Hi Hc. unfold block_full.
  pose proof (crel_upd i i _ _ Hc ltac:(auto) Hi) as Hu. destruct (crel_col _ _ _ L Hc Hi) as [H1 H2].
  eapply out_bind; [apply Hp; auto; apply crel_mark; auto|]. intros x y. apply res_ctx_rel. auto.
Qed.
Lemma aligned_f {A B} (R : A -> B -> Prop) p p' : lay -> frel R p p' -> frel R (aligned_fast p) (aligned_fast p').
Proof.
  intros L Hp i c1 c2 Hi Hc. unfold aligned_fast.
  pose proof (crel_upd i i _ _ Hc ltac:(auto) Hi) as Hu. destruct (crel_col _ _ _ L Hc Hi) as [H1 H2].
  rewrite (eqb_marks _ _ _ _ (proj2 (proj2 Hu) L) H2). destruct (Z.eqb _ _); [apply Hp; auto|constructor; auto].
Qed.
Lemma aligned_p {A B} (R : A -> B -> Prop) p p' : lay -> prel R p p' -> prel R (aligned_full p) (aligned_full p').
Proof.
  intros L Hp i c1 c2 ins rem Hi Hc. unfold aligned_full.
  pose proof (crel_upd i i _ _ Hc ltac:(auto) Hi) as Hu. destruct (crel_col _ _ _ L Hc Hi) as [H1 H2].
  rewrite (eqb_marks _ _ _ _ (proj2 (proj2 Hu) L) H2). destruct (Z.eqb _ _); [apply Hp; auto|constructor; auto].
Qed.
Lemma indented_f {A B} (R : A -> B -> Prop) d p p' : lay -> frel R p p' -> frel R (indented_fast d p) (indented_fast d p').
Proof.
  intros L Hp i c1 c2 Hi Hc. unfold indented_fast.
  pose proof (crel_upd i i _ _ Hc ltac:(auto) Hi) as Hu. destruct (crel_col _ _ _ L Hc Hi) as [H1 H2].
  assert (HM : (ctx_mark (update_loc c1 s1 (k1 + i)) + d = (ctx_mark (update_loc c2 s2 (k2 + i)) + d) + D)%Z).
  { rewrite (proj2 (proj2 Hu) L). lia. }
  rewrite (eqb_marks _ _ _ _ HM H2). destruct (Z.eqb _ _); [|constructor; auto].
  eapply out_bind; [apply Hp; auto; apply crel_mark; auto|]. intros x y. apply sres_ctx_rel. auto.
Qed.
Lemma indented_p {A B} (R : A -> B -> Prop) d p p' : lay -> prel R p p' -> prel R (indented_full d p) (indented_full d p').
Proof.
  intros L Hp i c1 c2 ins rem Hi Hc. unfold indented_full.
  pose proof (crel_upd i i _ _ Hc ltac:(auto) Hi) as Hu. destruct (crel_col _ _ _ L Hc Hi) as [H1 H2].
  assert (HM : (ctx_mark (update_loc c1 s1 (k1 + i)) + d = (ctx_mark (update_loc c2 s2 (k2 + i)) + d) + D)%Z).
  { rewrite (proj2 (proj2 Hu) L). lia. }
  rewrite (eqb_marks _ _ _ _ HM H2). destruct (Z.eqb _ _); [|constructor; auto].
  eapply out_bind; [apply Hp; auto; apply crel_mark; auto|]. intros x y. apply res_ctx_rel. auto.
Qed.

(** ** All parsers *)
Theorem fast_param n : forall A B (R : A -> B -> Prop) g g', grel A B R g g' -> frel R (fast E1 n g) (fast E2 n g').
Proof.
  induction n as [|n IH]; intros A B R g g' H; [intros i c1 c2 _ _; exact I|].
  induction H.
  all: try (intros i c1 c2 Hi Hc; simpl; exact I).
  - intros i c1 c2 Hi Hc. apply ok_here; auto.
  - intros i c1 c2 Hi Hc. simpl. unfold purefn_fast. eapply out_bind; [exact H|]. intros a b Hab. apply ok_here; auto.
  - intros i c1 c2 Hi Hc. apply er_here; auto.
  - apply eof_f.
  - apply satisfy_f; auto.
  - apply sym_f; auto.
  - apply literal_f; auto.
  - apply regexp_f; auto.
  - intros i c1 c2 Hi Hc. simpl. unfold fmap_fast. eapply out_bind; [apply (IH _ _ _ _ _ H); auto|].
    intros a b. apply sres_fmap_rel; auto.
  - apply (alt_f R); auto.
  - apply (bind_f R Q); auto.
  - apply (seq_f R Q S); auto.
  - apply (maybe_f R); auto.
  - intros i c1 c2 Hi Hc. apply (many_f R); auto.
  - apply (attempt_f R); auto.
  - intros i c1 c2 Hi Hc. simpl. unfold label_fast. eapply out_bind; [apply (IH _ _ _ _ _ H); auto|].
    intros a b. apply sres_exp_rel.
  - apply (IH _ _ _ _ _ H).
  - apply (IH _ _ _ _ _ H).
  - apply (IH _ _ _ _ _ H).
  - apply (block_f R); auto.
  - apply (aligned_f R); auto.
  - apply (indented_f R); auto.
  - apply (IH _ _ _ _ _ (HE d)).
  - intros i c1 c2 Hi Hc. reflexivity.
  - intros i c1 c2 Hi Hc. eapply out_weaken; [|apply IHgrel; auto]. intros a b. apply srel_weak; auto.
Qed.
Theorem full_param n : forall A B (R : A -> B -> Prop) g g', grel A B R g g' -> prel R (full E1 n g) (full E2 n g').
Proof.
  induction n as [|n IH]; intros A B R g g' H; [intros i c1 c2 ins rem _ _; exact I|].
  induction H.
  - intros i c1 c2 ins rem Hi Hc. apply ok_here; auto.
  - intros i c1 c2 ins rem Hi Hc. simpl. unfold purefn_full. eapply out_bind; [exact H|]. intros a b Hab. apply ok_here; auto.
  - intros i c1 c2 ins rem Hi Hc. apply er_here; auto.
  - apply eof_p.
  - apply satisfy_p; auto.
  - apply sym_p; auto.
  - apply literal_p; auto.
  - apply regexp_p; auto.
  - intros i c1 c2 ins rem Hi Hc. simpl. unfold fmap_full. eapply out_bind; [apply (IH _ _ _ _ _ H); auto|].
    intros a b. apply res_fmap_rel; auto.
  - apply (alt_p R); auto.
  - apply (bind_p R Q); auto.
  - apply (seq_p R Q S); auto.
  - apply (maybe_p R); auto.
  - intros i c1 c2 ins rem Hi Hc. apply (many_p R); auto.
  - apply (attempt_p R); auto. apply fast_param; auto.
  - intros i c1 c2 ins rem Hi Hc. simpl. unfold label_full. eapply out_bind; [apply (IH _ _ _ _ _ H); auto|].
    intros a b. apply res_exp_rel.
  - apply (recover_p R); auto.
  - apply (with_p R); auto. intros; simpl; auto.
  - apply (with_p R); auto. intros i Hi. apply H0. unfold N in Hi. lia.
  - apply (block_p R); auto.
  - apply (aligned_p R); auto.
  - apply (indented_p R); auto.
  - apply (IH _ _ _ _ _ (HE d)).
  - intros i c1 c2 ins rem Hi Hc. reflexivity.
  - intros i c1 c2 ins rem Hi Hc. eapply out_weaken; [|apply IHgrel; auto]. intros a b. apply rrel_weak; auto.
Qed.
End Param.
