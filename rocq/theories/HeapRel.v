(** Two ways to run the code of HeapGen.v are related if their statements are. *)
From Verif Require Export HeapGen.

(** the code of Heap.v is the instance of HeapGen.v with one thread *)
Definition heap_sem (T : Type) : sem T :=
  Sem T (Heap.M T) (@Heap.ret T) (@Heap.call T) (@Heap.bindM T) (@Heap.alloc T) (@Heap.get T) (@Heap.put T).
Section Instance.
Context {T : Type} {V : nat -> Type}.
Lemma heap_instance (E : env T V) n A (g : gram T V A) : HeapGen.hparse (heap_sem T) E n g = Heap.hparse E n g.
Proof. reflexivity. Qed.
Lemma heap_instance_fmap A B (f : A -> out B) : HeapGen.hpresult_fmap (heap_sem T) f = Heap.hpresult_fmap f.
Proof. reflexivity. Qed.
Lemma heap_instance_unwrap A (r : hpresult A) : HeapGen.hunwrap (heap_sem T) r = Heap.hunwrap r.
Proof. reflexivity. Qed.
End Instance.

(** [W] are the worlds: which objects of the one run correspond to which of the
    other ([acc]: both may read them, [own]: both may also write them). *)
Section Rel.
Context {T : Type}.
Variable m1 m2 : sem T.
Variable W : Type.
Variable ext : W -> W -> Prop.
Variable own acc : W -> nat -> nat -> Prop.
Variable relM : forall (w : W) (X Y : Type), (W -> X -> Y -> Prop) -> sM m1 X -> sM m2 Y -> Prop.
Arguments relM w {X Y}.
Hypothesis ext_refl : forall w, ext w w.
Hypothesis ext_trans : forall u v w, ext u v -> ext v w -> ext u w.
Hypothesis own_mono : forall w w' a b, ext w w' -> own w a b -> own w' a b.
Hypothesis acc_mono : forall w w' a b, ext w w' -> acc w a b -> acc w' a b.
Hypothesis own_acc : forall w a b, own w a b -> acc w a b.
Hypothesis rel_ret : forall w X Y (R : W -> X -> Y -> Prop) x y, R w x y -> relM w R (sret m1 x) (sret m2 y).
Hypothesis rel_call_gen : forall w X (R : W -> X -> X -> Prop) (o : out X),
  (forall x, o = Ret x -> R w x x) -> relM w R (scall m1 o) (scall m2 o).
Hypothesis rel_bind : forall w X Y X' Y' (R : W -> X -> Y -> Prop) (R' : W -> X' -> Y' -> Prop) p1 p2 k1 k2,
  relM w R p1 p2 -> (forall w' x y, ext w w' -> R w' x y -> relM w' R' (k1 x) (k2 y)) ->
  relM w R' (sbind m1 p1 k1) (sbind m2 p2 k2).
Hypothesis rel_alloc : forall w c, relM w own (salloc m1 c) (salloc m2 c).
Hypothesis rel_get : forall w a b, acc w a b -> relM w (fun _ => eq) (sget m1 a) (sget m2 b).
Hypothesis rel_put : forall w a b c, own w a b -> relM w (fun _ => eq) (sput m1 a c) (sput m2 b c).

Lemma rel_call w X (o : out X) : relM w (fun _ => eq) (scall m1 o) (scall m2 o).
Proof. apply rel_call_gen. auto. Qed.
Lemma rel_stop w X (R : W -> X -> X -> Prop) (o : out X) : (forall x, o <> Ret x) -> relM w R (scall m1 o) (scall m2 o).
Proof. intros H. apply rel_call_gen. intros x E. destruct (H _ E). Qed.
Notation reach := (W -> nat -> nat -> Prop).
(** references to corresponding objects; [P] is [own] or [acc] *)
Definition Rop (P : reach) (w : W) (o1 o2 : hop) : Prop :=
  hp_op o1 = hp_op o2 /\ hp_loc o1 = hp_loc o2 /\ P w (hp_addr o1) (hp_addr o2).
Definition Rrep (P : reach) {A} (w : W) (r1 r2 : hrep A) : Prop :=
  hr_cost r1 = hr_cost r2 /\ hr_ins r1 = hr_ins r2 /\ hr_val r1 = hr_val r2 /\ hr_pos r1 = hr_pos r2 /\
  Forall2 (Rop P w) (hr_ops r1) (hr_ops r2) /\ P w (hr_addr r1) (hr_addr r2).
Definition Rok (P : reach) {A} (w : W) (o1 o2 : hok A) : Prop :=
  hk_val o1 = hk_val o2 /\ hk_pos o1 = hk_pos o2 /\ P w (hk_addr o1) (hk_addr o2).
Definition Rerr (P : reach) (w : W) (e1 e2 : herr) : Prop := he_loc e1 = he_loc e2 /\ P w (he_addr e1) (he_addr e2).
Definition Rrec (P : reach) {A} (w : W) (r1 r2 : hrec A) : Prop :=
  Forall2 (Rrep P w) (hc_reps r1) (hc_reps r2) /\ hc_min r1 = hc_min r2 /\ hc_loc r1 = hc_loc r2 /\
  P w (hc_addr r1) (hc_addr r2).
Definition Rs (P : reach) {A} (w : W) (r1 r2 : hsres A) : Prop :=
  match r1, r2 with HSOk a, HSOk b => Rok P w a b | HSErr a, HSErr b => Rerr P w a b | _, _ => False end.
Definition Rr (P : reach) {A} (w : W) (r1 r2 : hres A) : Prop :=
  match r1, r2 with
  | HROk a, HROk b => Rok P w a b | HRErr a, HRErr b => Rerr P w a b | HRRec a, HRRec b => Rrec P w a b
  | _, _ => False
  end.
Definition Rp (P : reach) {A} (w : W) (r1 r2 : hpresult A) : Prop :=
  Rr P w (hpr_result r1) (hpr_result r2) /\ hpr_fmt r1 = hpr_fmt r2.
Definition mono {X Y} (R : W -> X -> Y -> Prop) : Prop := forall w w' x y, ext w w' -> R w x y -> R w' x y.

Lemma Forall2_mono {X Y} (R R' : X -> Y -> Prop) l1 l2 : (forall x y, R x y -> R' x y) -> Forall2 R l1 l2 -> Forall2 R' l1 l2.
Proof. intros H F. induction F; constructor; auto. Qed.
Lemma Forall2_maps {X Y X' Y'} (R : X' -> Y' -> Prop) (f : X -> X') (g : Y -> Y') l1 l2 :
  Forall2 (fun x y => R (f x) (g y)) l1 l2 -> Forall2 R (map f l1) (map g l2).
Proof. intros F. induction F; constructor; auto. Qed.
Lemma Rop_mono P : mono P -> mono (Rop P).
Proof. intros HP w w' x y E (A & B & C). repeat split; auto. eapply HP; eauto. Qed.
Lemma Rrep_mono P A : mono P -> mono (@Rrep P A).
Proof.
  intros HP w w' x y E (H1 & H2 & H3 & H4 & H5 & H6). repeat split; auto; [|eapply HP; eauto].
  eapply Forall2_mono; [|exact H5]. intros. eapply Rop_mono; eauto.
Qed.
Lemma Rok_mono P A : mono P -> mono (@Rok P A).
Proof. intros HP w w' x y E (H1 & H2 & H3). repeat split; auto. eapply HP; eauto. Qed.
Lemma Rerr_mono P : mono P -> mono (Rerr P).
Proof. intros HP w w' x y E (H1 & H2). repeat split; auto. eapply HP; eauto. Qed.
Lemma Rrec_mono P A : mono P -> mono (@Rrec P A).
Proof.
  intros HP w w' x y E (H1 & H2 & H3 & H4). repeat split; auto; [|eapply HP; eauto].
  eapply Forall2_mono; [|exact H1]. intros. eapply Rrep_mono; eauto.
Qed.
Lemma Rs_mono P A : mono P -> mono (@Rs P A).
Proof. intros HP w w' [a|a] [b|b] E H; cbn in *; auto; [eapply Rok_mono|eapply Rerr_mono]; eauto. Qed.
Lemma Rr_mono P A : mono P -> mono (@Rr P A).
Proof. intros HP w w' [a|a|a] [b|b|b] E H; cbn in *; auto; [eapply Rok_mono|eapply Rerr_mono|eapply Rrec_mono]; eauto. Qed.
Lemma eq_mono X : mono (fun _ => @eq X).
Proof. intros w w' x y _ H. exact H. Qed.

Section Weaken.
Variable P Q : reach.
Hypothesis PQ : forall w a b, P w a b -> Q w a b.
Lemma Rop_weak w x y : Rop P w x y -> Rop Q w x y.
Proof. intros (A & B & C). repeat split; auto. Qed.
Lemma Rrep_weak A w (x y : hrep A) : Rrep P w x y -> Rrep Q w x y.
Proof. intros (H1 & H2 & H3 & H4 & H5 & H6). repeat split; auto. eapply Forall2_mono; [|exact H5]. apply Rop_weak. Qed.
Lemma Rr_weak A w (x y : hres A) : Rr P w x y -> Rr Q w x y.
Proof.
  destruct x as [x|x|x], y as [y|y|y]; cbn; auto.
  - intros (A1 & A2 & A3). repeat split; auto.
  - intros (A1 & A2). split; auto.
  - intros (A1 & A2 & A3 & A4). repeat split; auto. eapply Forall2_mono; [|exact A1]. intros. apply Rrep_weak; auto.
Qed.
End Weaken.

(** ** Loops *)
Lemma rel_mapH w X Y X' Y' (R : W -> X -> Y -> Prop) (R' : W -> X' -> Y' -> Prop) f1 f2 l1 l2 : mono R -> mono R' ->
  (forall w' x y, ext w w' -> R w' x y -> relM w' R' (f1 x) (f2 y)) -> Forall2 (R w) l1 l2 ->
  relM w (fun w => Forall2 (R' w)) (mapH m1 f1 l1) (mapH m2 f2 l2).
Proof.
  intros HR HR' Hf F. revert w Hf F. induction l1 as [|x l1 IH] in l2 |- *; intros w Hf F; inversion F; subst; cbn [mapH].
  - apply rel_ret. constructor.
  - eapply rel_bind; [apply Hf; eauto|]. intros w1 x' y' E1 Rx. eapply rel_bind.
    + apply IH; [intros; apply Hf; eauto|]. eapply Forall2_mono; [|eassumption]. intros. eapply HR; eauto.
    + intros w2 xs ys E2 Rxs. apply rel_ret. constructor; auto. eapply HR'; eauto.
Qed.
Lemma rel_flat_mapH w X Y X' Y' (R : W -> X -> Y -> Prop) (R' : W -> X' -> Y' -> Prop) f1 f2 l1 l2 : mono R -> mono R' ->
  (forall w' x y, ext w w' -> R w' x y -> relM w' (fun w => Forall2 (R' w)) (f1 x) (f2 y)) -> Forall2 (R w) l1 l2 ->
  relM w (fun w => Forall2 (R' w)) (flat_mapH m1 f1 l1) (flat_mapH m2 f2 l2).
Proof.
  intros HR HR' Hf F. revert w Hf F. induction l1 as [|x l1 IH] in l2 |- *; intros w Hf F; inversion F; subst; cbn [flat_mapH].
  - apply rel_ret. constructor.
  - eapply rel_bind; [apply Hf; eauto|]. intros w1 x' y' E1 Rx. eapply rel_bind.
    + apply IH; [intros; apply Hf; eauto|]. eapply Forall2_mono; [|eassumption]. intros. eapply HR; eauto.
    + intros w2 xs ys E2 Rxs. apply rel_ret. apply Forall2_app; auto. eapply Forall2_mono; [|exact Rx]. intros; eapply HR'; eauto.
Qed.
Lemma rel_iterH w X Y (R : W -> X -> Y -> Prop) f1 f2 l1 l2 : mono R ->
  (forall w' x y, ext w w' -> R w' x y -> relM w' (fun _ => eq) (f1 x) (f2 y)) -> Forall2 (R w) l1 l2 ->
  relM w (fun _ => eq) (iterH m1 f1 l1) (iterH m2 f2 l2).
Proof.
  intros HR Hf F. revert w Hf F. induction l1 as [|x l1 IH] in l2 |- *; intros w Hf F; inversion F; subst; cbn [iterH].
  - apply rel_ret. reflexivity.
  - eapply rel_bind; [apply Hf; eauto|]. intros w1 _ _ E1 _.
    apply IH; [intros; apply Hf; eauto|]. eapply Forall2_mono; [|eassumption]. intros. eapply HR; eauto.
Qed.

(** move everything known to the later world *)
Ltac later1 E H :=
  let ty := type of H in
  lazymatch ty with
  | own _ _ _ => apply (own_mono _ _ _ _ E) in H
  | acc _ _ _ => apply (acc_mono _ _ _ _ E) in H
  | Rop own _ _ _ => apply (Rop_mono own own_mono _ _ _ _ E) in H
  | Rrep own _ _ _ => apply (Rrep_mono own _ own_mono _ _ _ _ E) in H
  | Rok own _ _ _ => apply (Rok_mono own _ own_mono _ _ _ _ E) in H
  | Rerr own _ _ _ => apply (Rerr_mono own own_mono _ _ _ _ E) in H
  | Rrec own _ _ _ => apply (Rrec_mono own _ own_mono _ _ _ _ E) in H
  | Rs own _ _ _ => apply (Rs_mono own _ own_mono _ _ _ _ E) in H
  | Rr own _ _ _ => apply (Rr_mono own _ own_mono _ _ _ _ E) in H
  | Rr acc _ _ _ => apply (Rr_mono acc _ acc_mono _ _ _ _ E) in H
  | Rrep acc _ _ _ => apply (Rrep_mono acc _ acc_mono _ _ _ _ E) in H
  | Forall2 (Rop own _) _ _ => apply (fun F => Forall2_mono _ _ _ _ (fun x y => Rop_mono own own_mono _ _ x y E) F) in H
  | Forall2 (Rop acc _) _ _ => apply (fun F => Forall2_mono _ _ _ _ (fun x y => Rop_mono acc acc_mono _ _ x y E) F) in H
  | Forall2 (Rrep own _) _ _ => apply (fun F => Forall2_mono _ _ _ _ (fun x y => Rrep_mono own _ own_mono _ _ x y E) F) in H
  | Forall2 (Rrep acc _) _ _ => apply (fun F => Forall2_mono _ _ _ _ (fun x y => Rrep_mono acc _ acc_mono _ _ x y E) F) in H
  end.
Ltac later :=
  match goal with E : ext ?w ?w' |- _ =>
    repeat match goal with
    | H : context[w] |- _ => lazymatch H with E => fail | _ => later1 E H end
    end; clear E
  end.
Ltac split_refs := repeat match goal with
  | H : Rok _ _ _ _ |- _ => destruct H as (? & ? & ?)
  | H : Rerr _ _ _ _ |- _ => destruct H as (? & ?)
  | H : Rop _ _ _ _ |- _ => destruct H as (? & ? & ?)
  | H : Rrep _ _ _ _ |- _ => destruct H as (? & ? & ? & ? & ? & ?)
  | H : Rrec _ _ _ _ |- _ => destruct H as (? & ? & ? & ?)
  end.
(** the next statement: [bnd lemma] *)
Ltac nxt := let E := fresh "E" in intros ? ? ? E ?; cbv beta in *; later; subst.
Tactic Notation "bnd" tactic3(t) := eapply rel_bind; [t|nxt].
Tactic Notation "rd" := eapply rel_bind; [apply rel_get; eauto using own_acc|let E := fresh "E" in intros ? ? ? E ->; later].

Lemma rel_new_ok w A (v : A) pos c x con : relM w (Rok own) (new_ok m1 v pos c x con) (new_ok m2 v pos c x con).
Proof. unfold new_ok. bnd (apply rel_alloc). apply rel_ret. repeat split; auto. Qed.
Lemma rel_new_err w l x con : relM w (Rerr own) (new_err m1 l x con) (new_err m2 l x con).
Proof. unfold new_err. bnd (apply rel_alloc). apply rel_ret. repeat split; auto. Qed.
Lemma rel_new_op w o l x con : relM w (Rop own) (new_op m1 o l x con) (new_op m2 o l x con).
Proof. unfold new_op. bnd (apply rel_alloc). apply rel_ret. repeat split; auto. Qed.
Lemma rel_new_rec w A (r1 r2 : list (hrep A)) mn l x con : Forall2 (Rrep own w) r1 r2 ->
  relM w (Rrec own) (new_rec m1 r1 mn l x con) (new_rec m2 r2 mn l x con).
Proof. intros H. unfold new_rec. bnd (apply rel_alloc). apply rel_ret. repeat split; auto. Qed.
Lemma rel_new_rep w A cost prio ins o1 o2 (v : A) pos c x con : Forall2 (Rop own w) o1 o2 ->
  relM w (Rrep own) (new_rep m1 cost prio ins o1 v pos c x con) (new_rep m2 cost prio ins o2 v pos c x con).
Proof. intros H. unfold new_rep. bnd (apply rel_alloc). apply rel_ret. repeat split; auto. Qed.
Lemma rel_make_insert w A rem (v : A) pos c l lab x :
  relM w (Rrep own) (h_make_insert m1 rem v pos c l lab x) (h_make_insert m2 rem v pos c l lab x).
Proof. unfold h_make_insert. bnd (apply rel_new_op). apply rel_new_rep. auto. Qed.
Lemma rel_make_user_insert w A rem (v : A) pos c l lab x :
  relM w (Rrep own) (h_make_user_insert m1 rem v pos c l lab x) (h_make_user_insert m2 rem v pos c l lab x).
Proof. unfold h_make_user_insert. bnd (apply rel_new_op). apply rel_new_rep. auto. Qed.
Lemma rel_make_skip w A ins (v : A) pos c l k x :
  relM w (Rrep own) (h_make_skip m1 ins v pos c l k x) (h_make_skip m2 ins v pos c l k x).
Proof. unfold h_make_skip. bnd (apply rel_new_op). apply rel_new_rep. auto. Qed.
Lemma rel_make_pending_skip w A ins (v : A) pos c l k x :
  relM w (Rrep own) (h_make_pending_skip m1 ins v pos c l k x) (h_make_pending_skip m2 ins v pos c l k x).
Proof. unfold h_make_pending_skip. bnd (apply rel_new_op). apply rel_new_rep. auto. Qed.

Notation same := (fun _ : W => eq).
Lemma rel_put_exp w a b x : own w a b -> relM w same (put_exp m1 a x) (put_exp m2 b x).
Proof. intros H. unfold put_exp. rd. apply rel_put; auto. Qed.
Lemma rel_put_con w a b x : own w a b -> relM w same (put_con m1 a x) (put_con m2 b x).
Proof. intros H. unfold put_con. rd. apply rel_put; auto. Qed.
Lemma rel_put_ctx w a b x : own w a b -> relM w same (put_ctx m1 a x) (put_ctx m2 b x).
Proof. intros H. unfold put_ctx. rd. apply rel_put; auto. Qed.
Lemma rel_put_prio w a b x : own w a b -> relM w same (put_prio m1 a x) (put_prio m2 b x).
Proof. intros H. unfold put_prio. rd. apply rel_put; auto. Qed.
Lemma rel_at_set w x a b : own w a b -> relM w same (at_set_exp m1 x a) (at_set_exp m2 x b).
Proof. intros H. unfold at_set_exp. rd. destruct (c_con y); [apply rel_ret; auto|apply rel_put_exp; auto]. Qed.
Lemma rel_at_prepend w x con a b : own w a b -> relM w same (at_prepend m1 x con a) (at_prepend m2 x con b).
Proof.
  intros H. unfold at_prepend. rd. destruct (c_con y); [apply rel_ret; auto|]. bnd (apply rel_put_exp; auto).
  rd. apply rel_put_con; auto.
Qed.
Lemma rel_ops_set w x l1 l2 : Forall2 (Rop own w) l1 l2 -> relM w same (h_ops_set_expected m1 l1 x) (h_ops_set_expected m2 l2 x).
Proof.
  intros H. unfold h_ops_set_expected. eapply rel_iterH; eauto; [exact (Rop_mono own own_mono)|]. intros w' o1 o2 _ (_ & _ & O). apply rel_at_set, O.
Qed.
Lemma rel_ops_prepend w x con l1 l2 : Forall2 (Rop own w) l1 l2 ->
  relM w same (h_ops_prepend_expected m1 l1 x con) (h_ops_prepend_expected m2 l2 x con).
Proof.
  intros H. unfold h_ops_prepend_expected. eapply rel_iterH; eauto; [exact (Rop_mono own own_mono)|]. intros w' o1 o2 _ (_ & _ & O). apply rel_at_prepend, O.
Qed.

Lemma rel_rep_fmap w A B (f : A -> out B) r1 r2 : Rrep own w r1 r2 -> relM w (Rrep own) (h_rep_fmap m1 f r1) (h_rep_fmap m2 f r2).
Proof.
  intros (E1 & E2 & E3 & E4 & F & O). unfold h_rep_fmap. rewrite E1, E2, E3, E4. bnd (apply rel_call). subst. rd. apply rel_new_rep; auto.
Qed.
Lemma rel_ok_fmap w A B (f : A -> out B) r1 r2 : Rok own w r1 r2 -> relM w (Rok own) (h_ok_fmap m1 f r1) (h_ok_fmap m2 f r2).
Proof. intros (E1 & E2 & O). unfold h_ok_fmap. rewrite E1, E2. bnd (apply rel_call). subst. rd. apply rel_new_ok; auto. Qed.
Lemma rel_rec_fmap w A B (f : A -> out B) r1 r2 : Rrec own w r1 r2 -> relM w (Rrec own) (h_rec_fmap m1 f r1) (h_rec_fmap m2 f r2).
Proof.
  intros (F & E1 & E2 & O). unfold h_rec_fmap. rewrite E1, E2. eapply rel_bind.
  - eapply rel_mapH with (R := Rrep own); [exact (Rrep_mono own _ own_mono)|exact (Rrep_mono own _ own_mono)| |exact F].
    intros. apply rel_rep_fmap; auto.
  - nxt. rd. apply rel_new_rec; auto.
Qed.
Lemma rel_s_fmap w A B (f : A -> out B) r1 r2 : Rs own w r1 r2 -> relM w (Rs own) (hs_fmap m1 f r1) (hs_fmap m2 f r2).
Proof.
  destruct r1 as [a|a], r2 as [b|b]; cbn [Rs hs_fmap]; try contradiction; intros H; [|apply rel_ret; auto].
  bnd (apply rel_ok_fmap; eauto). apply rel_ret; auto.
Qed.
Lemma rel_fmap w A B (f : A -> out B) r1 r2 : Rr own w r1 r2 -> relM w (Rr own) (h_fmap m1 f r1) (h_fmap m2 f r2).
Proof.
  destruct r1 as [a|a|a], r2 as [b|b|b]; cbn [Rr h_fmap]; try contradiction; intros H; [|apply rel_ret; auto|].
  - bnd (apply rel_ok_fmap; eauto). apply rel_ret; auto.
  - bnd (apply rel_rec_fmap; eauto). apply rel_ret; auto.
Qed.
Lemma rel_s_ctx w A c (r1 r2 : hsres A) : Rs own w r1 r2 -> relM w (Rs own) (hs_set_ctx m1 c r1) (hs_set_ctx m2 c r2).
Proof.
  destruct r1 as [a|a], r2 as [b|b]; cbn [Rs hs_set_ctx]; try contradiction; intros H; [|apply rel_ret; auto].
  bnd (apply rel_put_ctx, H). apply rel_ret; auto.
Qed.
Lemma rel_set_ctx w A c (r1 r2 : hres A) : Rr own w r1 r2 -> relM w (Rr own) (h_set_ctx m1 c r1) (h_set_ctx m2 c r2).
Proof.
  destruct r1 as [a|a|a], r2 as [b|b|b]; cbn [Rr h_set_ctx]; try contradiction; intros H; [|apply rel_ret; auto|].
  - bnd (apply rel_put_ctx, H). apply rel_ret; auto.
  - eapply rel_bind.
    + eapply rel_iterH; [exact (Rrep_mono own _ own_mono)| |apply H]. intros w' x y _ (_ & _ & _ & _ & _ & O). apply rel_put_ctx, O.
    + nxt. apply rel_ret; auto.
Qed.
Lemma Rs_addr w A (r1 r2 : hsres A) : Rs own w r1 r2 -> own w (hs_addr r1) (hs_addr r2).
Proof. destruct r1, r2; cbn; try contradiction; intros H; apply H. Qed.
Lemma Rr_addr P w A (r1 r2 : hres A) : Rr P w r1 r2 -> P w (h_addr r1) (h_addr r2).
Proof. destruct r1, r2; cbn; try contradiction; intros H; apply H. Qed.
Lemma rel_s_exp w A x (r1 r2 : hsres A) : Rs own w r1 r2 -> relM w (Rs own) (hs_set_exp m1 x r1) (hs_set_exp m2 x r2).
Proof. intros H. unfold hs_set_exp. bnd (apply rel_at_set, Rs_addr, H). apply rel_ret; auto. Qed.
Lemma rel_rep_set w A x (r1 r2 : hrep A) : Rrep own w r1 r2 -> relM w same (h_rep_set_exp m1 x r1) (h_rep_set_exp m2 x r2).
Proof. intros H. unfold h_rep_set_exp. bnd (apply rel_at_set, H). apply rel_ops_set, H. Qed.
Lemma rel_set_exp w A x (r1 r2 : hres A) : Rr own w r1 r2 -> relM w (Rr own) (h_set_exp m1 x r1) (h_set_exp m2 x r2).
Proof.
  destruct r1 as [a|a|a], r2 as [b|b|b]; cbn [Rr h_set_exp h_addr]; try contradiction; intros H.
  - bnd (apply rel_at_set, H). apply rel_ret; auto.
  - bnd (apply rel_at_set, H). apply rel_ret; auto.
  - bnd (apply rel_at_set, H). eapply rel_bind.
    + eapply rel_iterH; [exact (Rrep_mono own _ own_mono)| |apply H]. intros; apply rel_rep_set; auto.
    + nxt. apply rel_ret; auto.
Qed.
Lemma rel_s_prepend w A x con (r1 r2 : hsres A) : Rs own w r1 r2 -> relM w (Rs own) (hs_prepend m1 x con r1) (hs_prepend m2 x con r2).
Proof. intros H. unfold hs_prepend. bnd (apply rel_at_prepend, Rs_addr, H). apply rel_ret; auto. Qed.
Lemma rel_rep_prepend w A x con (r1 r2 : hrep A) : Rrep own w r1 r2 -> relM w same (h_rep_prepend m1 x con r1) (h_rep_prepend m2 x con r2).
Proof. intros H. unfold h_rep_prepend. bnd (apply rel_at_prepend, H). apply rel_ops_prepend, H. Qed.
Lemma rel_prepend w A x con (r1 r2 : hres A) : Rr own w r1 r2 -> relM w (Rr own) (h_prepend m1 x con r1) (h_prepend m2 x con r2).
Proof.
  destruct r1 as [a|a|a], r2 as [b|b|b]; cbn [Rr h_prepend h_addr]; try contradiction; intros H.
  - bnd (apply rel_at_prepend, H). apply rel_ret; auto.
  - bnd (apply rel_at_prepend, H). apply rel_ret; auto.
  - bnd (apply rel_at_prepend, H). eapply rel_bind.
    + eapply rel_iterH; [exact (Rrep_mono own _ own_mono)| |apply H]. intros; apply rel_rep_prepend; auto.
    + nxt. apply rel_ret; auto.
Qed.

(** ** core/recovery.py *)
Lemma rel_join_ops w A B (r1 r2 : hrep A) (q1 q2 : hrep B) : Rrep own w r1 r2 -> Rrep own w q1 q2 ->
  relM w (fun w => Forall2 (Rop own w)) (h_join_ops m1 r1 q1) (h_join_ops m2 r2 q2).
Proof.
  intros H K. unfold h_join_ops. eapply rel_bind.
  - eapply rel_mapH with (R := Rop own) (R' := Rop own); [exact (Rop_mono own own_mono)|exact (Rop_mono own own_mono)| |apply H].
    intros w' x y _ (E1 & E2 & O). rewrite E1, E2. rd. apply rel_new_op.
  - nxt. destruct H as (? & ? & ? & ? & ? & ?). rd. bnd (apply rel_ops_prepend, K). apply rel_ret. apply Forall2_app; auto. apply K.
Qed.
Lemma rel_append_expected w A (r1 r2 : hrep A) x con : Rrep own w r1 r2 ->
  relM w same (h_append_expected m1 r1 x con) (h_append_expected m2 r2 x con).
Proof.
  intros (? & ? & ? & ? & ? & ?). unfold h_append_expected. destruct con; [apply rel_ret; auto|]. rd. apply rel_ret; auto.
Qed.
Lemma rel_cont_rec w A B C (merge : A -> B -> C) (r1 r2 : hrep A) (q1 q2 : hrep B) : Rrep own w r1 r2 -> Rrep own w q1 q2 ->
  relM w (Rrep own) (h_cont_rec m1 merge r1 q1) (h_cont_rec m2 merge r2 q2).
Proof.
  intros H K. unfold h_cont_rec.
  pose proof H as (E1 & E2 & E3 & E4 & F & O). pose proof K as (G1 & G2 & G3 & G4 & G & P).
  rewrite ?E1, ?E2, ?E3, ?E4, ?G1, ?G2, ?G3, ?G4. rd. bnd (apply rel_join_ops; eauto). rd. bnd (apply rel_append_expected; eauto). subst. rd. rd. apply rel_new_rep; auto.
Qed.
Lemma rel_cont_one w A B C ins p1 p2 (merge : A -> B -> C) (r1 r2 : hrep A) : Rrep own w r1 r2 ->
  (forall w v pos c r, relM w (Rr own) (p1 v pos c r) (p2 v pos c r)) ->
  relM w (fun w => Forall2 (Rrep own w)) (h_cont_one m1 ins p1 merge r1) (h_cont_one m2 ins p2 merge r2).
Proof.
  intros H Hp. unfold h_cont_one. pose proof H as (E1 & E2 & E3 & E4 & F & O). rewrite E1, E2, E3, E4. rd. bnd (apply Hp).
  destruct x as [a|a|a], y0 as [b|b|b]; try contradiction; cbn [Rr] in *.
  - match goal with K : Rok own _ _ _ |- _ => destruct K as (K1 & K2 & K3) end. rewrite K1, K2. rd. rd. bnd (apply rel_append_expected; auto). subst.
    bnd (apply rel_new_rep; auto). apply rel_ret. auto.
  - apply rel_ret. auto.
  - eapply rel_mapH with (R := Rrep own) (R' := Rrep own); [exact (Rrep_mono own _ own_mono)|exact (Rrep_mono own _ own_mono)| |match goal with K : Rrec own _ _ _ |- _ => apply K end].
    intros w1 u v E R. later. apply rel_cont_rec; auto.
Qed.
Lemma rel_continue w A B C ins p1 p2 (merge : A -> B -> C) (r1 r2 : hrec A) : Rrec own w r1 r2 ->
  (forall w v pos c r, relM w (Rr own) (p1 v pos c r) (p2 v pos c r)) ->
  relM w (Rr own) (h_continue m1 r1 ins p1 merge) (h_continue m2 r2 ins p2 merge).
Proof.
  intros (F & E1 & E2 & O) Hp. unfold h_continue. rewrite E1, E2. eapply rel_bind.
  - eapply rel_flat_mapH with (R := Rrep own) (R' := Rrep own); [exact (Rrep_mono own _ own_mono)|exact (Rrep_mono own _ own_mono)| |exact F].
    intros. apply rel_cont_one; auto.
  - nxt. rd. bnd (apply rel_new_rec; eauto). apply rel_ret. auto.
Qed.
Lemma rel_filter w A keep (l1 l2 : list (hrep A)) : Forall2 (Rrep own w) l1 l2 ->
  relM w (fun w => Forall2 (Rrep own w)) (h_filter m1 keep l1) (h_filter m2 keep l2).
Proof.
  revert w l2. induction l1 as [|x l1 IH]; intros w l2 H; inversion H as [|? y ? l2' Hx Hl]; subst; cbn [h_filter]; [apply rel_ret; auto|].
  pose proof Hx as (_ & _ & _ & _ & _ & O). clear H. rd. bnd (apply IH; auto). apply rel_ret. destruct (keep _); auto.
Qed.
Lemma rel_join_repairs w A (a1 a2 b1 b2 : hrec A) : Rrec own w a1 a2 -> Rrec own w b1 b2 ->
  relM w (Rrec own) (h_join_repairs m1 a1 b1) (h_join_repairs m2 a2 b2).
Proof.
  intros (F & E1 & E2 & O) (G & E3 & E4 & P). unfold h_join_repairs. rewrite E1, E2, E3, E4.
  eapply rel_bind with (R := fun w x y => Forall2 (Rrep own w) (fst x) (fst y) /\ snd x = snd y).
  - destruct (hc_min a2); (bnd (apply rel_filter; eauto)); apply rel_ret; cbn [fst snd]; split; auto using Forall2_app.
  - intros w' x y E [X Y]. later. rewrite Y. rd. destruct (c_con y0); [apply rel_new_rec; auto|]. rd.
    destruct (c_con y1); apply rel_new_rec; auto.
Qed.

(** ** Parsing functions *)
Definition relF {A} (p1 : hpfast m1 A) (p2 : hpfast m2 A) : Prop :=
  forall w s pos c, relM w (Rs own) (p1 s pos c) (p2 s pos c).
Definition relG {A} (p1 : hpfull m1 A) (p2 : hpfull m2 A) : Prop :=
  forall w s pos c ins rem, relM w (Rr own) (p1 s pos c ins rem) (p2 s pos c ins rem).

Lemma rel_s_ok w A (v : A) pos c x con : relM w (Rs own) (s_ok m1 v pos c x con) (s_ok m2 v pos c x con).
Proof. unfold s_ok. bnd (apply rel_new_ok). apply rel_ret; auto. Qed.
Lemma rel_s_err w A l x con : relM w (@Rs own A) (s_err m1 l x con) (s_err m2 l x con).
Proof. unfold s_err. bnd (apply rel_new_err). apply rel_ret; auto. Qed.
Lemma rel_f_ok w A (v : A) pos c x con : relM w (Rr own) (f_ok m1 v pos c x con) (f_ok m2 v pos c x con).
Proof. unfold f_ok. bnd (apply rel_new_ok). apply rel_ret; auto. Qed.
Lemma rel_f_err w A l x con : relM w (@Rr own A) (f_err m1 l x con) (f_err m2 l x con).
Proof. unfold f_err. bnd (apply rel_new_err). apply rel_ret; auto. Qed.
Lemma rel_f_rec w A (r1 r2 : list (hrep A)) mn l x con : Forall2 (Rrep own w) r1 r2 ->
  relM w (Rr own) (f_rec m1 r1 mn l x con) (f_rec m2 r2 mn l x con).
Proof. intros H. unfold f_rec. bnd (apply rel_new_rec; eauto). apply rel_ret; auto. Qed.

Lemma rel_eof : relG (h_eof_full m1) (h_eof_full m2).
Proof.
  intros w s pos c ins rem. unfold h_eof_full. destruct (Nat.eqb pos (List.length s)); [apply rel_f_ok|]. destruct rem; [|apply rel_f_err].
  bnd (apply rel_make_pending_skip). apply rel_f_rec. auto.
Qed.
Lemma rel_satisfy test : relG (h_satisfy_full m1 test) (h_satisfy_full m2 test).
Proof.
  intros w s pos c ins rem. unfold h_satisfy_full. bnd (apply rel_call). destruct y; [apply rel_f_ok|]. destruct rem; [|apply rel_f_err].
  bnd (apply rel_call). destruct y as [[cur t]|]; [|apply rel_f_err]. bnd (apply rel_make_skip). apply rel_f_rec. auto.
Qed.
Lemma rel_inserts w A m rem (v : A) pos c l lab x :
  relM w (fun w => Forall2 (Rrep own w))
    (if Z.eqb m 0 then sret m1 [] else sbind m1 (h_make_insert m1 rem v pos c l lab x) (fun p => sret m1 [p]))
    (if Z.eqb m 0 then sret m2 [] else sbind m2 (h_make_insert m2 rem v pos c l lab x) (fun p => sret m2 [p])).
Proof. destruct (Z.eqb m 0); [apply rel_ret; auto|]. bnd (apply rel_make_insert). apply rel_ret. auto. Qed.
Lemma rel_sym teq x lab : relG (h_sym_full m1 teq x lab) (h_sym_full m2 teq x lab).
Proof.
  intros w s pos c ins rem. unfold h_sym_full. bnd (apply rel_call). destruct y; [apply rel_f_ok|]. destruct rem; [|apply rel_f_err].
  bnd (apply rel_inserts). bnd (apply rel_call). match goal with |- context[match ?y with Some _ => _ | None => _ end] => destruct y as [[cur t']|] end; [|apply rel_f_rec; auto].
  bnd (apply rel_make_skip). apply rel_f_rec. apply Forall2_app; auto.
Qed.
Lemma rel_literal teq x lab : relG (h_literal_full m1 teq x lab) (h_literal_full m2 teq x lab).
Proof.
  intros w s pos c ins rem. unfold h_literal_full. destruct (starts_with teq x s pos); [apply rel_f_ok|]. destruct rem; [|apply rel_f_err].
  bnd (apply rel_inserts). bnd (apply rel_call). match goal with |- context[match ?y with Some _ => _ | None => _ end] => destruct y as [[cur t']|] end; [|apply rel_f_rec; auto].
  bnd (apply rel_make_skip). apply rel_f_rec. apply Forall2_app; auto.
Qed.
Lemma rel_regexp A (m : list T -> nat -> option (nat * option A)) : relG (h_regexp_full m1 m) (h_regexp_full m2 m).
Proof.
  intros w s pos c ins rem. unfold h_regexp_full. destruct (probe_re m s pos) as [[e v]|]; [apply rel_f_ok|]. destruct rem; [|apply rel_f_err].
  bnd (apply rel_call). destruct y as [[cur [e v]]|]; [|apply rel_f_err]. bnd (apply rel_make_skip). apply rel_f_rec. auto.
Qed.
Lemma rel_fresh_s w A (o : out (sres T A)) : relM w (Rs own) (h_fresh_s m1 o) (h_fresh_s m2 o).
Proof. unfold h_fresh_s. bnd (apply rel_call). destruct y; [apply rel_s_ok|apply rel_s_err]. Qed.
Lemma Rs_Rr w A (r1 r2 : hsres A) : Rs own w r1 r2 -> Rr own w (hsres_res r1) (hsres_res r2).
Proof. destruct r1, r2; cbn; auto. Qed.
Lemma rel_fresh_f w A (o : out (sres T A)) : relM w (Rr own) (h_fresh_f m1 o) (h_fresh_f m2 o).
Proof. unfold h_fresh_f. bnd (apply rel_fresh_s). apply rel_ret. apply Rs_Rr. auto. Qed.

Ltac same_case := match goal with
  | H : Rs own _ ?a ?b |- _ => destruct a, b; cbn [Rs] in H; try contradiction
  | H : Rr own _ ?a ?b |- _ => destruct a, b; cbn [Rr] in H; try contradiction
  end.
Lemma rel_alt_fast A (p1 : hpfast m1 A) p2 q1 q2 : relF p1 p2 -> relF q1 q2 -> relF (h_alt_fast m1 p1 q1) (h_alt_fast m2 p2 q2).
Proof.
  intros Hp Hq w s pos c. unfold h_alt_fast. bnd (apply Hp). same_case; [apply rel_ret; auto|]. destruct H as [E1 O]. rewrite E1.
  rd. destruct (c_con y); [apply rel_ret; split; auto|]. bnd (apply Hq). pose proof (Rs_addr _ _ _ _ H). rd.
  destruct (c_con y1); [apply rel_ret; auto|]. rd. same_case; [apply rel_s_exp; auto|apply rel_s_err].
Qed.
Lemma rel_alt_recover A (p1 : hpfull m1 A) p2 q1 q2 la x : relG p1 p2 -> relG q1 q2 ->
  relG (h_alt_recover m1 p1 q1 la x) (h_alt_recover m2 p2 q2 la x).
Proof.
  intros Hp Hq w s pos c ins rem. unfold h_alt_recover. destruct rem as [k|]; [|apply rel_f_err]. bnd (apply Hp). bnd (apply Hq).
  destruct x0 as [a1|a1|a1], y as [a2|a2|a2]; cbn [Rr] in H; try contradiction;
  destruct x1 as [b1|b1|b1], y0 as [b2|b2|b2]; cbn [Rr] in H0; try contradiction;
  try apply rel_f_err; try (apply rel_set_exp; assumption).
  bnd (apply rel_join_repairs; eauto). apply rel_set_exp. auto.
Qed.
Lemma rel_alt_full A (p1 : hpfull m1 A) p2 q1 q2 : relG p1 p2 -> relG q1 q2 -> relG (h_alt_full m1 p1 q1) (h_alt_full m2 p2 q2).
Proof.
  intros Hp Hq w s pos c ins rem. unfold h_alt_full. bnd (apply Hp).
  destruct x as [a1|[l1 e1]|[r1 mn1 l1 e1]], y as [a2|[l2 e2]|[r2 mn2 l2 e2]]; try (cbn [Rr] in H; contradiction); [apply rel_ret; auto|..];
  (assert (El : l1 = l2) by apply H; assert (O : own w' e1 e2) by apply H; subst l2;
   eapply rel_bind; [apply rel_get, own_acc, O|intros w1 k1 k E ->; later]; destruct (c_con k); [apply rel_ret; auto|];
   eapply rel_bind; [apply Hq|intros w2 rb1 rb2 E HK; later]; pose proof (Rr_addr _ _ _ _ _ HK) as OK;
   eapply rel_bind; [apply rel_get, own_acc, OK|intros w3 k2' k2 E ->; later];
   destruct (c_con k2); [apply rel_ret; auto|];
   eapply rel_bind; [apply rel_get, own_acc, O|intros w4 k3' k3 E ->; later];
   destruct rb1 as [b1|b1|b1], rb2 as [b2|b2|b2]; try (cbn [Rr] in HK; contradiction);
   [apply rel_set_exp; auto|apply rel_alt_recover; auto|apply rel_alt_recover; auto]).
Qed.
Lemma rel_bind_fast A B (p1 : hpfast m1 A) p2 (f1 : A -> hpfast m1 B) f2 : relF p1 p2 -> (forall v, relF (f1 v) (f2 v)) ->
  relF (h_bind_fast m1 p1 f1) (h_bind_fast m2 p2 f2).
Proof.
  intros Hp Hf w s pos c. unfold h_bind_fast. bnd (apply Hp). same_case; [|apply rel_ret; auto].
  destruct H as (E1 & E2 & O). rewrite E1, E2. rd. bnd (apply Hf). rd. apply rel_s_prepend. auto.
Qed.
Lemma rel_bind_full A B (p1 : hpfull m1 A) p2 (f1 : A -> hpfull m1 B) f2 : relG p1 p2 -> (forall v, relG (f1 v) (f2 v)) ->
  relG (h_bind_full m1 p1 f1) (h_bind_full m2 p2 f2).
Proof.
  intros Hp Hf w s pos c ins rem. unfold h_bind_full. bnd (apply Hp). same_case; [|apply rel_ret; auto|].
  - destruct H as (E1 & E2 & O). rewrite E1, E2. rd. bnd (destruct (c_con y); apply Hf). rd. apply rel_prepend. auto.
  - apply rel_continue; [auto|intros; apply Hf].
Qed.
Lemma rel_seq_fast A B C (p1 : hpfast m1 A) p2 (q1 : hpfast m1 B) q2 (merge : A -> B -> C) : relF p1 p2 -> relF q1 q2 ->
  relF (h_seq_fast m1 p1 q1 merge) (h_seq_fast m2 p2 q2 merge).
Proof.
  intros Hp Hq w s pos c. unfold h_seq_fast. bnd (apply Hp). same_case; [|apply rel_ret; auto].
  destruct H as (E1 & E2 & O). rewrite E1, E2. rd. bnd (apply Hq). bnd (apply rel_s_fmap; eauto). rd. apply rel_s_prepend. auto.
Qed.
Lemma rel_seq_full A B C (p1 : hpfull m1 A) p2 (q1 : hpfull m1 B) q2 (merge : A -> B -> C) : relG p1 p2 -> relG q1 q2 ->
  relG (h_seq_full m1 p1 q1 merge) (h_seq_full m2 p2 q2 merge).
Proof.
  intros Hp Hq w s pos c ins rem. unfold h_seq_full. bnd (apply Hp). same_case; [|apply rel_ret; auto|].
  - destruct H as (E1 & E2 & O). rewrite E1, E2. rd. bnd (apply Hq). bnd (apply rel_fmap; eauto). rd. apply rel_prepend. auto.
  - apply rel_continue; [auto|intros; apply Hq].
Qed.
Lemma Rs_some w A (r1 r2 : hsres A) : Rs own w r1 r2 -> Rs own w (hs_some r1) (hs_some r2).
Proof. destruct r1, r2; cbn; auto. intros (E1 & E2 & O). repeat split; cbn; congruence || auto. Qed.
Lemma Rr_some w A (r1 r2 : hres A) : Rr own w r1 r2 -> Rr own w (h_some r1) (h_some r2).
Proof.
  destruct r1, r2; cbn; auto.
  - intros (E1 & E2 & O). repeat split; cbn; congruence || auto.
  - intros (F & E1 & E2 & O). repeat split; auto. cbn. apply Forall2_maps. eapply Forall2_mono; [|exact F].
    intros x y (H1 & H2 & H3 & H4 & H5 & H6). repeat split; cbn; congruence || auto.
Qed.
Lemma rel_maybe_fast A (p1 : hpfast m1 A) p2 : relF p1 p2 -> relF (h_maybe_fast m1 p1) (h_maybe_fast m2 p2).
Proof.
  intros Hp w s pos c. unfold h_maybe_fast. bnd (apply Hp). pose proof (Rs_addr _ _ _ _ H). rd.
  assert (G : (match x with HSOk _ => true | _ => false end) = match y with HSOk _ => true | _ => false end) by (same_case; reflexivity).
  rewrite G. destruct (_ || _); [apply rel_ret, Rs_some; auto|apply rel_s_ok].
Qed.
Lemma rel_maybe_full A (p1 : hpfull m1 A) p2 : relG p1 p2 -> relG (h_maybe_full m1 p1) (h_maybe_full m2 p2).
Proof.
  intros Hp w s pos c ins rem. unfold h_maybe_full. bnd (apply Hp). pose proof (Rr_addr _ _ _ _ _ H). rd.
  assert (G : (match x with HROk _ => true | _ => false end) = match y with HROk _ => true | _ => false end) by (same_case; reflexivity).
  rewrite G. destruct (_ || _); [apply rel_ret, Rr_some; auto|apply rel_f_ok].
Qed.
Lemma rel_many_fast A (p1 : hpfast m1 A) p2 n : relF p1 p2 -> forall w con value s pos c,
  relM w (Rs own) (h_many_fast m1 p1 n con value s pos c) (h_many_fast m2 p2 n con value s pos c).
Proof.
  intros Hp. induction n as [|n IH]; intros w con value s pos c; cbn [h_many_fast].
  - apply rel_stop. discriminate.
  - bnd (apply Hp). pose proof (Rs_addr _ _ _ _ H). rd. same_case.
    + destruct H as (E1 & E2 & O). rewrite E1, E2. destruct (c_con y0); [apply IH|].
      apply rel_stop. discriminate.
    + destruct (c_con y0); [apply rel_ret; auto|apply rel_s_ok].
Qed.
Lemma rel_many_full A (p1 : hpfull m1 A) p2 n : relG p1 p2 -> forall w con value s pos c ins,
  relM w (Rr own) (h_many_full m1 p1 n con value s pos c ins) (h_many_full m2 p2 n con value s pos c ins).
Proof.
  intros Hp. induction n as [|n IH]; intros w con value s pos c ins; cbn [h_many_full].
  - apply rel_stop. discriminate.
  - bnd (apply Hp). same_case.
    + destruct H as (E1 & E2 & O). rewrite E1, E2. rd. destruct (c_con y); [apply IH|]. apply rel_stop. discriminate.
    + destruct H as (E1 & O). rd. destruct (c_con y); [apply rel_ret; split; auto|apply rel_f_ok].
    + apply rel_continue; [auto|intros; apply IH].
Qed.
Lemma rel_attempt_fast A (p1 : hpfast m1 A) p2 : relF p1 p2 -> relF (h_attempt_fast m1 p1) (h_attempt_fast m2 p2).
Proof.
  intros Hp w s pos c. unfold h_attempt_fast. bnd (apply Hp). same_case; [apply rel_ret; auto|].
  destruct H as (E1 & O). rewrite E1. rd. apply rel_s_err.
Qed.
Lemma rel_attempt_full A (f1 : hpfast m1 A) f2 p1 p2 : relF f1 f2 -> relG p1 p2 ->
  relG (h_attempt_full m1 f1 p1) (h_attempt_full m2 f2 p2).
Proof.
  intros Hf Hp w s pos c ins rem. unfold h_attempt_full. destruct rem; [apply Hp|]. bnd (apply rel_attempt_fast; eauto).
  apply rel_ret. apply Rs_Rr. auto.
Qed.
Lemma rel_recover A (p1 : hpfull m1 A) p2 : relG p1 p2 -> relG (h_recover_full m1 p1) (h_recover_full m2 p2).
Proof.
  intros Hp w s pos c ins rem. unfold h_recover_full. bnd (apply Hp). same_case; [apply rel_ret; auto|apply rel_ret; auto|].
  eapply rel_bind.
  - eapply rel_iterH; [exact (Rrep_mono own _ own_mono)| |apply H]. intros w1 x y _ (_ & _ & _ & _ & _ & O). unfold h_rep_set_prio.
    rd. destruct (c_prio y0); [apply rel_ret; auto|apply rel_put_prio; auto].
  - nxt. apply rel_ret; auto.
Qed.
Lemma rel_recover_with A (p1 : hpfull m1 A) p2 mk lab : relG p1 p2 -> relG (h_recover_with_full m1 p1 mk lab) (h_recover_with_full m2 p2 mk lab).
Proof.
  intros Hp w s pos c ins rem. unfold h_recover_with_full. destruct rem as [m|]; [|apply Hp]. bnd (apply Hp). same_case; [apply rel_ret; auto|..].
  - cbn [h_addr]. pose proof H as (E1 & O). rd. destruct (c_con y); [apply rel_ret; auto|]. destruct (Z.eqb m 0); [apply rel_ret; auto|].
    bnd (apply rel_call). bnd (apply rel_make_user_insert). apply rel_f_rec. auto.
  - cbn [h_addr]. pose proof H as (F & E1 & E2 & O). rd. destruct (c_con y); [apply rel_ret; auto|]. destruct (Z.eqb m 0); [apply rel_ret; auto|].
    bnd (apply rel_call). bnd (apply rel_make_user_insert). rewrite E1. apply rel_f_rec. auto.
Qed.
Lemma rel_block_fast A (p1 : hpfast m1 A) p2 : relF p1 p2 -> relF (h_block_fast m1 p1) (h_block_fast m2 p2).
Proof. intros Hp w s pos c. unfold h_block_fast. bnd (apply Hp). apply rel_s_ctx. auto. Qed.
Lemma rel_block_full A (p1 : hpfull m1 A) p2 : relG p1 p2 -> relG (h_block_full m1 p1) (h_block_full m2 p2).
Proof. intros Hp w s pos c ins rem. unfold h_block_full. bnd (apply Hp). apply rel_set_ctx. auto. Qed.
Lemma rel_aligned_fast A (p1 : hpfast m1 A) p2 : relF p1 p2 -> relF (h_aligned_fast m1 p1) (h_aligned_fast m2 p2).
Proof. intros Hp w s pos c. unfold h_aligned_fast. destruct (Z.eqb _ _); [apply Hp|apply rel_s_err]. Qed.
Lemma rel_aligned_full A (p1 : hpfull m1 A) p2 : relG p1 p2 -> relG (h_aligned_full m1 p1) (h_aligned_full m2 p2).
Proof. intros Hp w s pos c ins rem. unfold h_aligned_full. destruct (Z.eqb _ _); [apply Hp|apply rel_f_err]. Qed.
Lemma rel_indented_fast A d (p1 : hpfast m1 A) p2 : relF p1 p2 -> relF (h_indented_fast m1 d p1) (h_indented_fast m2 d p2).
Proof.
  intros Hp w s pos c. unfold h_indented_fast. destruct (Z.eqb _ _); [|apply rel_s_err]. bnd (apply Hp). apply rel_s_ctx. auto.
Qed.
Lemma rel_indented_full A d (p1 : hpfull m1 A) p2 : relG p1 p2 -> relG (h_indented_full m1 d p1) (h_indented_full m2 d p2).
Proof.
  intros Hp w s pos c ins rem. unfold h_indented_full. destruct (Z.eqb _ _); [|apply rel_f_err]. bnd (apply Hp). apply rel_set_ctx. auto.
Qed.

Context {V : nat -> Type} (E : env T V).
Lemma rel_hfast n : forall A (g : gram T V A), relF (fun s pos c => hfast m1 E n g s pos c) (fun s pos c => hfast m2 E n g s pos c).
Proof.
  induction n as [|n IH]; intros A g w s pos c; [apply rel_stop; discriminate|].
  assert (IHp : forall A (g : gram T V A), relF (hfast m1 E n g) (hfast m2 E n g)) by (intros; intros ? ? ? ?; apply IH).
  destruct g; cbn [hfast].
  all: try apply rel_fresh_s.
  - bnd (apply IHp). apply rel_s_fmap. auto.
  - apply rel_alt_fast; apply IHp.
  - apply rel_bind_fast; intros; apply IHp.
  - apply rel_seq_fast; apply IHp.
  - apply rel_maybe_fast; apply IHp.
  - apply rel_many_fast; apply IHp.
  - apply rel_attempt_fast; apply IHp.
  - bnd (apply IHp). apply rel_s_exp. auto.
  - apply IHp.
  - apply IHp.
  - apply IHp.
  - apply rel_block_fast; apply IHp.
  - apply rel_aligned_fast; apply IHp.
  - apply rel_indented_fast; apply IHp.
  - apply IHp.
  - apply rel_stop; discriminate.
Qed.
Lemma rel_hfull n : forall A (g : gram T V A),
  relG (fun s pos c ins rem => hfull m1 E n g s pos c ins rem) (fun s pos c ins rem => hfull m2 E n g s pos c ins rem).
Proof.
  induction n as [|n IH]; intros A g w s pos c ins rem; [apply rel_stop; discriminate|].
  assert (IHp : forall A (g : gram T V A), relG (hfull m1 E n g) (hfull m2 E n g)) by (intros; intros ? ? ? ? ? ?; apply IH).
  assert (IHf : forall A (g : gram T V A), relF (hfast m1 E n g) (hfast m2 E n g)) by (intros; intros ? ? ? ?; apply rel_hfast).
  destruct g; cbn [hfull].
  all: try apply rel_fresh_f.
  - apply rel_eof.
  - apply rel_satisfy.
  - apply rel_sym.
  - apply rel_literal.
  - apply rel_regexp.
  - bnd (apply IHp). apply rel_fmap. auto.
  - apply rel_alt_full; apply IHp.
  - apply rel_bind_full; intros; apply IHp.
  - apply rel_seq_full; apply IHp.
  - apply rel_maybe_full; apply IHp.
  - apply rel_many_full; apply IHp.
  - apply rel_attempt_full; [apply IHf|apply IHp].
  - bnd (apply IHp). apply rel_set_exp. auto.
  - apply rel_recover; apply IHp.
  - apply rel_recover_with; apply IHp.
  - apply rel_recover_with; apply IHp.
  - apply rel_block_full; apply IHp.
  - apply rel_aligned_full; apply IHp.
  - apply rel_indented_full; apply IHp.
  - apply IHp.
  - apply rel_stop; discriminate.
Qed.

(** ** The API *)
Theorem rel_hparse n A (g : gram T V A) w s rec k getl fmt :
  relM w (Rp own) (hparse m1 E n g s rec k getl fmt) (hparse m2 E n g s rec k getl fmt).
Proof.
  unfold hparse. eapply rel_bind with (R := Rr own).
  - destruct rec; [apply rel_hfull|]. bnd (apply rel_hfast). apply rel_ret. apply Rs_Rr. auto.
  - intros w1 x y _ H. apply rel_ret. split; auto.
Qed.

(** [fmap] and [unwrap] only read the objects they are given *)
Lemma rel_rep_fmap_acc w A B (f : A -> out B) r1 r2 : Rrep acc w r1 r2 -> relM w (Rrep acc) (h_rep_fmap m1 f r1) (h_rep_fmap m2 f r2).
Proof.
  intros (E1 & E2 & E3 & E4 & F & O). unfold h_rep_fmap. rewrite E1, E2, E3, E4. bnd (apply rel_call). rd.
  unfold new_rep. bnd (apply rel_alloc). apply rel_ret. repeat split; auto.
Qed.
Lemma rel_fmap_acc w A B (f : A -> out B) r1 r2 : Rr acc w r1 r2 -> relM w (Rr acc) (h_fmap m1 f r1) (h_fmap m2 f r2).
Proof.
  destruct r1 as [a|a|a], r2 as [b|b|b]; cbn [Rr h_fmap]; try contradiction; intros H; [|apply rel_ret; auto|].
  - destruct H as (E1 & E2 & O). unfold h_ok_fmap. rewrite E1, E2. eapply rel_bind.
    + bnd (apply rel_call). rd. apply rel_new_ok.
    + nxt. apply rel_ret. destruct H as (G1 & G2 & G3). repeat split; auto.
  - destruct H as (F & E1 & E2 & O). unfold h_rec_fmap. rewrite E1, E2. eapply rel_bind with (R := Rrec acc).
    + eapply rel_bind.
      * eapply rel_mapH with (R := Rrep acc) (R' := Rrep acc); [exact (Rrep_mono acc _ acc_mono)|exact (Rrep_mono acc _ acc_mono)| |exact F].
        intros. apply rel_rep_fmap_acc; auto.
      * nxt. rd. unfold new_rec. bnd (apply rel_alloc). apply rel_ret. repeat split; auto.
    + intros w1 x y _ G. apply rel_ret. exact G.
Qed.
Theorem rel_presult_fmap w A B (f : A -> out B) r1 r2 : Rp acc w r1 r2 -> relM w (Rp acc) (hpresult_fmap m1 f r1) (hpresult_fmap m2 f r2).
Proof.
  intros [H G]. unfold hpresult_fmap. rewrite G. eapply rel_bind; [apply rel_fmap_acc, H|]. intros w1 x y _ K. apply rel_ret. split; auto.
Qed.
Lemma rel_py_min w A (l1 l2 : list (hrep A)) : forall w' b1 b2 pr, ext w w' -> Forall2 (Rrep acc w) l1 l2 -> Rrep acc w' b1 b2 ->
  relM w' (Rrep acc) (h_py_min m1 (b1, pr) l1) (h_py_min m2 (b2, pr) l2).
Proof.
  revert l2. induction l1 as [|x l1 IH]; intros l2 w' b1 b2 pr E' F H; inversion F as [|? y ? l2' Hx Hl]; subst; cbn [h_py_min fst].
  - apply rel_ret. exact H.
  - pose proof (Rrep_mono acc _ acc_mono _ _ _ _ E' Hx) as Hx'. pose proof Hx' as (E1 & E2 & E3 & E4 & _ & O).
    eapply rel_bind; [apply rel_get, O|]. intros w1 c1 c Ew ->. cbv beta in *.
    pose proof (Rrep_mono acc _ acc_mono _ _ _ _ Ew Hx') as Hx1. pose proof (Rrep_mono acc _ acc_mono _ _ _ _ Ew H) as H1.
    pose proof H1 as (G1 & _ & _ & G4 & _ & _). unfold h_key_lt. rewrite E1, E4, G1, G4.
    match goal with |- context[if ?b then _ else _] => destruct b end; apply IH; eauto.
Qed.
Theorem rel_unwrap w A (r1 r2 : hpresult A) rec : Rp acc w r1 r2 -> relM w same (hunwrap m1 r1 rec) (hunwrap m2 r2 rec).
Proof.
  intros [H G]. unfold hunwrap. rewrite G. destruct (hpr_result r1) as [a|a|a], (hpr_result r2) as [b|b|b]; cbn [Rr] in H; try contradiction.
  - destruct H as (E1 & _). rewrite E1. apply rel_ret. reflexivity.
  - destruct H as (E1 & O). rewrite E1. rd. apply rel_ret. reflexivity.
  - destruct H as (F & E1 & E2 & O). rewrite E2. destruct F as [|x y l1 l2 Hx Hl].
    + rd. apply rel_ret. reflexivity.
    + pose proof Hx as (_ & _ & _ & _ & _ & Ox). rd. eapply rel_bind; [eapply rel_py_min; eauto|]. intros w1 p q Ew K. cbv beta in *.
      pose proof K as (_ & _ & V1 & _ & V2 & _). rewrite V1. destruct rec; [apply rel_ret; reflexivity|].
      eapply rel_bind.
      * eapply rel_mapH with (R := Rop acc) (R' := fun _ => eq); [exact (Rop_mono acc acc_mono)|apply eq_mono| |exact V2].
        intros w2 i j _ (I1 & I2 & I3). rewrite I1, I2. eapply rel_bind; [apply rel_get, I3|]. intros w3 c1 c _ ->. apply rel_ret. reflexivity.
      * intros w2 e1 e2 _ EE. cbv beta in EE. apply rel_ret. f_equal. clear -EE. induction EE; congruence.
Qed.
Lemma Rp_own_acc w A (r1 r2 : hpresult A) : Rp own w r1 r2 -> Rp acc w r1 r2.
Proof. intros [H G]. split; auto. eapply Rr_weak; eauto. Qed.
End Rel.
