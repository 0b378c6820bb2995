(** Fuel-free reasoning about runs: limits of monotone runs. *)
From Verif Require Export LawSpec RepInd.

Definition mono {A} (x : nat -> out A) : Prop := forall n m, n <= m -> lef (x n) (x m).

(** [x] finishes with outcome [r] *)
Definition lim {A} (x : nat -> out A) (r : out A) : Prop :=
  exists n, forall m, n <= m -> x m = r.

Lemma lim_at {A} (x : nat -> out A) r n : mono x -> x n = r -> r <> NoFuel -> lim x r.
Proof. intros Hm H Hr. exists n. intros m Hnm. destruct (Hm n m Hnm); congruence. Qed.
Lemma lim_ex {A} (x : nat -> out A) r : lim x r -> exists n, x n = r.
Proof. intros [n H]. exists n. apply H. lia. Qed.
Lemma lim_iff {A} (x : nat -> out A) r : mono x -> r <> NoFuel ->
  (lim x r <-> exists n, x n = r).
Proof. intros Hm Hr. split; [apply lim_ex|intros [n H]; eapply lim_at; eauto]. Qed.
Lemma lim_unique {A} (x : nat -> out A) r r' : lim x r -> lim x r' -> r = r'.
Proof.
  intros [n H] [n' H']. rewrite <- (H (n + n')) by lia. apply H'. lia.
Qed.
Lemma lim_const {A} (r : out A) : lim (fun _ => r) r.
Proof. exists 0. auto. Qed.
Lemma mono_const {A} (r : out A) : mono (fun _ => r).
Proof. intros n m H. apply lef_refl. Qed.
Lemma mono_bind {A B} (x : nat -> out A) (y : nat -> A -> out B) :
  mono x -> (forall a, mono (fun n => y n a)) -> mono (fun n => obind (x n) (y n)).
Proof. intros Hx Hy n m H. apply lef_bind; [apply Hx; auto|intros a; apply (Hy a); auto]. Qed.

Lemma lim_bind_ret {A B} (x : nat -> out A) (y : nat -> A -> out B) a r :
  lim x (Ret a) -> lim (fun n => y n a) r -> lim (fun n => obind (x n) (y n)) r.
Proof.
  intros [n H] [n' H']. exists (n + n'). intros m Hm. rewrite H by lia. simpl. apply H'. lia.
Qed.
Lemma lim_bind_exn {A B} (x : nat -> out A) (y : nat -> A -> out B) e :
  lim x (Raise e) -> lim (fun n => obind (x n) (y n)) (Raise e).
Proof. intros [n H]. exists n. intros m Hm. rewrite H by lia. reflexivity. Qed.
Lemma lim_bind_inv {A B} (x : nat -> out A) (y : nat -> A -> out B) r :
  mono x -> (forall a, mono (fun n => y n a)) -> r <> NoFuel ->
  lim (fun n => obind (x n) (y n)) r ->
  (exists a, lim x (Ret a) /\ lim (fun n => y n a) r) \/
  (exists e, lim x (Raise e) /\ r = Raise e).
Proof.
  intros Hx Hy Hr H. apply lim_ex in H as [n H]. destruct (x n) as [a|e|] eqn:Hn; simpl in H.
  - left. exists a. split; [eapply lim_at; eauto; discriminate|]. eapply (lim_at _ _ n); eauto.
  - right. exists e. split; [eapply lim_at; eauto; discriminate|auto].
  - congruence.
Qed.

(** *** agreement *)
Section Agree.
Variable X : Prop.
Lemma agree_refl {A} (x : nat -> out A) : agree X x x.
Proof. split; intros; tauto. Qed.
Lemma agree_sym {A} (x y : nat -> out A) : agree X x y -> agree X y x.
Proof.
  intros [H1 H2]. split; [intros r; symmetry; apply H1|intros HX e; symmetry; apply H2; auto].
Qed.
Lemma agree_trans {A} (x y z : nat -> out A) : agree X x y -> agree X y z -> agree X x z.
Proof.
  intros [H1 H2] [K1 K2]. split.
  - intros r. rewrite H1. apply K1.
  - intros HX e. rewrite (H2 HX). apply K2; auto.
Qed.
Lemma agree_lef {A} (x y : nat -> out A) :
  (forall n, exists m, lef (x n) (y m)) -> (forall n, exists m, lef (y n) (x m)) -> agree X x y.
Proof.
  intros H K.
  assert (G : forall r, r <> NoFuel -> ((exists n, x n = r) <-> (exists n, y n = r))).
  { intros r Hr. split; intros [n Hn].
    - destruct (H n) as [m [L|L]]; [congruence|]. exists m. congruence.
    - destruct (K n) as [m [L|L]]; [congruence|]. exists m. congruence. }
  split; intros; apply G; discriminate.
Qed.
Lemma agree_lim {A} (x y : nat -> out A) : mono x -> mono y ->
  (agree X x y <->
   ((forall r, lim x (Ret r) <-> lim y (Ret r)) /\
    (X -> forall e, lim x (Raise e) <-> lim y (Raise e)))).
Proof.
  intros Hx Hy. unfold agree.
  assert (Lx : forall r, r <> NoFuel -> (lim x r <-> exists n, x n = r)) by (intros; apply lim_iff; auto).
  assert (Ly : forall r, r <> NoFuel -> (lim y r <-> exists n, y n = r)) by (intros; apply lim_iff; auto).
  split; intros [H1 H2]; split.
  - intros r. rewrite Lx, Ly by discriminate. apply H1.
  - intros HX e. rewrite Lx, Ly by discriminate. apply H2; auto.
  - intros r. rewrite <- Lx, <- Ly by discriminate. apply H1.
  - intros HX e. rewrite <- Lx, <- Ly by discriminate. apply H2; auto.
Qed.
Lemma agree_bind {A B} (x x' : nat -> out A) (y y' : nat -> A -> out B) :
  mono x -> mono x' -> (forall a, mono (fun n => y n a)) -> (forall a, mono (fun n => y' n a)) ->
  agree X x x' ->
  (forall a, lim x (Ret a) -> agree X (fun n => y n a) (fun n => y' n a)) ->
  agree X (fun n => obind (x n) (y n)) (fun n => obind (x' n) (y' n)).
Proof.
  intros Mx Mx' My My' Hx Hy.
  apply agree_lim; try (apply mono_bind; auto).
  pose proof (proj1 (agree_lim _ _ Mx Mx') Hx) as [H1 H2].
  assert (Hy' : forall a, lim x (Ret a) ->
    (forall r, lim (fun n => y n a) (Ret r) <-> lim (fun n => y' n a) (Ret r)) /\
    (X -> forall e, lim (fun n => y n a) (Raise e) <-> lim (fun n => y' n a) (Raise e))).
  { intros a Ha. apply (agree_lim _ _ (My a) (My' a)). auto. }
  split.
  - intros r. split; intros H; apply lim_bind_inv in H; try discriminate; auto.
    + destruct H as [(a & Ha & H)|(e & He & H)]; [|discriminate].
      eapply lim_bind_ret; [apply H1; exact Ha|]. apply (Hy' a Ha). exact H.
    + destruct H as [(a & Ha & H)|(e & He & H)]; [|discriminate].
      apply H1 in Ha. eapply lim_bind_ret; [exact Ha|]. apply (Hy' a Ha). exact H.
  - intros HX e. split; intros H; apply lim_bind_inv in H; try discriminate; auto.
    + destruct H as [(a & Ha & H)|(e' & He & H)].
      * eapply lim_bind_ret; [apply H1; exact Ha|]. apply (Hy' a Ha); auto.
      * injection H as <-. apply lim_bind_exn. apply H2; auto.
    + destruct H as [(a & Ha & H)|(e' & He & H)].
      * apply H1 in Ha. eapply lim_bind_ret; [exact Ha|]. apply (Hy' a Ha); auto.
      * injection H as <-. apply lim_bind_exn. apply H2; auto.
Qed.
End Agree.

Lemma agree_weaken (X Y : Prop) {A} (x y : nat -> out A) : (Y -> X) -> agree X x y -> agree Y x y.
Proof. intros H [H1 H2]. split; auto. Qed.

Section Runs.
Context {T : Type} {V : nat -> Type}.
Implicit Types E : env T V.
Lemma fast_monotone E A (g : gram T V A) s pos c : mono (fun n => fast E n g s pos c).
Proof. intros n m H. apply fast_lef; auto. Qed.
Lemma full_monotone E A (g : gram T V A) s pos c ins rem :
  mono (fun n => full E n g s pos c ins rem).
Proof. intros n m H. apply full_lef; auto. Qed.

Lemma same_refl X E A (g : gram T V A) : same_upto X E g g.
Proof. intros s pos c _. split; [|intros]; apply agree_refl. Qed.
Lemma same_sym X E A (g h : gram T V A) : same_upto X E g h -> same_upto X E h g.
Proof.
  intros H s pos c Hp. destruct (H s pos c Hp) as [H1 H2]. split; [|intros]; apply agree_sym; auto.
Qed.
Lemma same_trans X E A (g h k : gram T V A) :
  same_upto X E g h -> same_upto X E h k -> same_upto X E g k.
Proof.
  intros H K s pos c Hp. destruct (H s pos c Hp) as [H1 H2], (K s pos c Hp) as [K1 K2].
  split; [|intros]; eapply agree_trans; eauto.
Qed.
Lemma same_weaken E A (g h : gram T V A) : same E g h -> same_ok E g h.
Proof.
  intros H s pos c Hp. destruct (H s pos c Hp) as [H1 H2].
  split; [|intros]; apply (agree_weaken True False); auto.
Qed.

(** sufficient: each run of one is below a run of the other *)
Lemma same_of_lef X E A (g h : gram T V A) :
  (forall n, exists m, forall s pos c, lef (fast E n g s pos c) (fast E m h s pos c)) ->
  (forall n, exists m, forall s pos c, lef (fast E n h s pos c) (fast E m g s pos c)) ->
  (forall n, exists m, forall s pos c ins rem,
     lef (full E n g s pos c ins rem) (full E m h s pos c ins rem)) ->
  (forall n, exists m, forall s pos c ins rem,
     lef (full E n h s pos c ins rem) (full E m g s pos c ins rem)) ->
  same_upto X E g h.
Proof.
  intros H1 H2 H3 H4 s pos c _. split; [|intros ins rem]; apply agree_lef; intros n.
  - destruct (H1 n) as [m H]. exists m. apply H.
  - destruct (H2 n) as [m H]. exists m. apply H.
  - destruct (H3 n) as [m H]. exists m. apply H.
  - destruct (H4 n) as [m H]. exists m. apply H.
Qed.
End Runs.
