(** Lifting laws of the combinator functions to parser objects, away from
    fuel. *)
From Verif Require Export Prios.

Section Lift.
Context {T : Type} {V : nat -> Type}.
Variable E : env T V.
Notation gram := (gram T V).

Lemma lf {A} (g : gram A) n m : n <= m -> lefast (fast E n g) (fast E m g).
Proof. intros H s pos c. apply fast_lef; auto. Qed.
Lemma lF {A} (g : gram A) n m : n <= m -> lefull (full E n g) (full E m g).
Proof. intros H s pos c ins rem. apply full_lef; auto. Qed.

(** [u] at fuel [n] stands between [g] at fuel [n] and at fuel [k + n] *)
Definition between_fast {A} (g : gram A) (u : nat -> pfast T A) : Prop :=
  (forall n, lefast (fast E n g) (u n)) /\ exists k, forall n m, k + n <= m -> lefast (u n) (fast E m g).
Definition between_full {A} (g : gram A) (u : nat -> pfull T A) : Prop :=
  (forall n, lefull (full E n g) (u n)) /\ exists k, forall n m, k + n <= m -> lefull (u n) (full E m g).

Lemma bf_self {A} (g : gram A) : between_fast g (fun n => fast E n g).
Proof. split; [|exists 0]; intros; apply lf; lia. Qed.
Lemma bF_self {A} (g : gram A) : between_full g (fun n => full E n g).
Proof. split; [|exists 0]; intros; apply lF; lia. Qed.
Lemma nofuel_fast {A} (u : pfast T A) : lefast (fun _ _ _ => NoFuel) u.
Proof. intros s pos c. apply lef_nofuel. Qed.
Lemma nofuel_full {A} (u : pfull T A) : lefull (fun _ _ _ _ _ => NoFuel) u.
Proof. intros s pos c ins rem. apply lef_nofuel. Qed.

Lemma bf_pure {A} (x : A) : between_fast (GPure x) (fun _ => pure_fast x).
Proof.
  split; [|exists 1; intros n [|m] Hm; [lia|apply lefast_refl]].
  intros [|n]; [apply nofuel_fast|apply lefast_refl].
Qed.
Lemma bF_pure {A} (x : A) : between_full (GPure x) (fun _ => pure_full x).
Proof.
  split; [|exists 1; intros n [|m] Hm; [lia|apply lefull_refl]].
  intros [|n]; [apply nofuel_full|apply lefull_refl].
Qed.

Lemma bf_fmap {A B} (p : gram A) (f : A -> out B) u :
  between_fast p u -> between_fast (GFmap p f) (fun n => fmap_fast (u n) f).
Proof.
  intros [H1 [k H2]]. split.
  - intros [|n]; [apply nofuel_fast|]. apply lefast_fmap. eapply lefast_trans; [|apply H1].
    apply lf; lia.
  - exists (S k). intros n [|m] Hm; [lia|]. apply lefast_fmap. apply H2. lia.
Qed.
Lemma bF_fmap {A B} (p : gram A) (f : A -> out B) u :
  between_full p u -> between_full (GFmap p f) (fun n => fmap_full (u n) f).
Proof.
  intros [H1 [k H2]]. split.
  - intros [|n]; [apply nofuel_full|]. apply lefull_fmap. eapply lefull_trans; [|apply H1].
    apply lF; lia.
  - exists (S k). intros n [|m] Hm; [lia|]. apply lefull_fmap. apply H2. lia.
Qed.
Lemma bf_alt {A} (p q : gram A) u w :
  between_fast p u -> between_fast q w -> between_fast (GAlt p q) (fun n => alt_fast (u n) (w n)).
Proof.
  intros [H1 [k H2]] [K1 [j K2]]. split.
  - intros [|n]; [apply nofuel_fast|]. apply lefast_alt.
    + eapply lefast_trans; [|apply H1]. apply lf; lia.
    + eapply lefast_trans; [|apply K1]. apply lf; lia.
  - exists (S (k + j)). intros n [|m] Hm; [lia|]. apply lefast_alt.
    + apply H2. lia.
    + apply K2. lia.
Qed.
Lemma bF_alt {A} (p q : gram A) u w :
  between_full p u -> between_full q w -> between_full (GAlt p q) (fun n => alt_full (u n) (w n)).
Proof.
  intros [H1 [k H2]] [K1 [j K2]]. split.
  - intros [|n]; [apply nofuel_full|]. apply lefull_alt.
    + eapply lefull_trans; [|apply H1]. apply lF; lia.
    + eapply lefull_trans; [|apply K1]. apply lF; lia.
  - exists (S (k + j)). intros n [|m] Hm; [lia|]. apply lefull_alt.
    + apply H2. lia.
    + apply K2. lia.
Qed.
(** the bound must be uniform in the value for the continuation *)
Lemma bf_bind {A B} (p : gram A) (f : A -> gram B) u (w : nat -> A -> pfast T B) k :
  between_fast p u -> (forall v n, lefast (fast E n (f v)) (w n v)) ->
  (forall v n m, k + n <= m -> lefast (w n v) (fast E m (f v))) ->
  between_fast (GBind p f) (fun n => bind_fast (u n) (w n)).
Proof.
  intros [H1 [j H2]] K1 K2. split.
  - intros [|n]; [apply nofuel_fast|]. apply lefast_bind.
    + eapply lefast_trans; [|apply H1]. apply lf; lia.
    + intros v. eapply lefast_trans; [|apply K1]. apply lf; lia.
  - exists (S (j + k)). intros n [|m] Hm; [lia|]. apply lefast_bind.
    + apply H2. lia.
    + intros v. apply K2. lia.
Qed.
Lemma bF_bind {A B} (p : gram A) (f : A -> gram B) u (w : nat -> A -> pfull T B) k :
  between_full p u -> (forall v n, lefull (full E n (f v)) (w n v)) ->
  (forall v n m, k + n <= m -> lefull (w n v) (full E m (f v))) ->
  between_full (GBind p f) (fun n => bind_full (u n) (w n)).
Proof.
  intros [H1 [j H2]] K1 K2. split.
  - intros [|n]; [apply nofuel_full|]. apply lefull_bind.
    + eapply lefull_trans; [|apply H1]. apply lF; lia.
    + intros v. eapply lefull_trans; [|apply K1]. apply lF; lia.
  - exists (S (j + k)). intros n [|m] Hm; [lia|]. apply lefull_bind.
    + apply H2. lia.
    + intros v. apply K2. lia.
Qed.
Lemma bf_seq {A B C} (p : gram A) (q : gram B) (merge : A -> B -> C) u w :
  between_fast p u -> between_fast q w ->
  between_fast (GSeq p q merge) (fun n => seq_fast (u n) (w n) merge).
Proof.
  intros [H1 [k H2]] [K1 [j K2]]. split.
  - intros [|n]; [apply nofuel_fast|]. apply lefast_seq.
    + eapply lefast_trans; [|apply H1]. apply lf; lia.
    + eapply lefast_trans; [|apply K1]. apply lf; lia.
  - exists (S (k + j)). intros n [|m] Hm; [lia|]. apply lefast_seq.
    + apply H2. lia.
    + apply K2. lia.
Qed.
Lemma bF_seq {A B C} (p : gram A) (q : gram B) (merge : A -> B -> C) u w :
  between_full p u -> between_full q w ->
  between_full (GSeq p q merge) (fun n => seq_full (u n) (w n) merge).
Proof.
  intros [H1 [k H2]] [K1 [j K2]]. split.
  - intros [|n]; [apply nofuel_full|]. apply lefull_seq.
    + eapply lefull_trans; [|apply H1]. apply lF; lia.
    + eapply lefull_trans; [|apply K1]. apply lF; lia.
  - exists (S (k + j)). intros n [|m] Hm; [lia|]. apply lefull_seq.
    + apply H2. lia.
    + apply K2. lia.
Qed.
Lemma bf_maybe {A} (p : gram A) : between_fast (GMaybe p) (fun n => maybe_fast (fast E n p)).
Proof.
  assert (H : forall n m, n <= m -> lefast (maybe_fast (fast E n p)) (maybe_fast (fast E m p))).
  { intros n m H s pos c. unfold maybe_fast. apply lef_bind; [apply fast_lef; lia|intros; apply lef_refl]. }
  split; [|exists 1; intros n [|m] Hm; [lia|apply H; lia]].
  intros [|n]; [apply nofuel_fast|]. apply H. lia.
Qed.
Lemma bF_maybe {A} (p : gram A) : between_full (GMaybe p) (fun n => maybe_full (full E n p)).
Proof.
  assert (H : forall n m, n <= m -> lefull (maybe_full (full E n p)) (maybe_full (full E m p))).
  { intros n m H s pos c ins rem. unfold maybe_full. apply lef_bind; [apply full_lef; lia|intros; apply lef_refl]. }
  split; [|exists 1; intros n [|m] Hm; [lia|apply H; lia]].
  intros [|n]; [apply nofuel_full|]. apply H. lia.
Qed.

(** laws: related [u] and [w] give the same parsers *)
Definition outeq (X : Prop) {A} (x y : out A) : Prop :=
  (forall r, x = Ret r <-> y = Ret r) /\ (X -> forall e, x = Raise e <-> y = Raise e).
Lemma outeq_eq X {A} (x y : out A) : x = y -> outeq X x y.
Proof. intros ->. split; intros; tauto. Qed.
Lemma agree_outeq X {A} (x y : nat -> out A) : (forall n, outeq X (x n) (y n)) -> agree X x y.
Proof.
  intros H. split; [intros r|intros HX e]; split; intros [n Hn]; exists n; apply (H n); auto.
Qed.
Lemma agree_between_fast X {A} (g : gram A) u s pos c :
  between_fast g u -> agree X (fun n => fast E n g s pos c) (fun n => u n s pos c).
Proof.
  intros [H1 [k H2]]. apply agree_lef; intros n; [exists n; apply H1|exists (k + n); apply H2; lia].
Qed.
Lemma agree_between_full X {A} (g : gram A) u s pos c ins rem :
  between_full g u -> agree X (fun n => full E n g s pos c ins rem) (fun n => u n s pos c ins rem).
Proof.
  intros [H1 [k H2]]. apply agree_lef; intros n; [exists n; apply H1|exists (k + n); apply H2; lia].
Qed.

Lemma same_laws X {A} (g h : gram A) ug uG uh uH :
  between_fast g ug -> between_full g uG -> between_fast h uh -> between_full h uH ->
  (forall n s pos c, pos <= List.length s -> outeq X (ug n s pos c) (uh n s pos c)) ->
  (forall n s pos c ins rem, pos <= List.length s -> outeq X (uG n s pos c ins rem) (uH n s pos c ins rem)) ->
  same_upto X E g h.
Proof.
  intros H1 H2 K1 K2 Hf HF s pos c Hp. split.
  - eapply agree_trans; [apply (agree_between_fast X g ug); auto|].
    eapply agree_trans; [apply agree_outeq; intros n; apply Hf; auto|].
    apply agree_sym. apply agree_between_fast; auto.
  - intros ins rem.
    eapply agree_trans; [apply (agree_between_full X g uG); auto|].
    eapply agree_trans; [apply agree_outeq; intros n; apply HF; auto|].
    apply agree_sym. apply agree_between_full; auto.
Qed.
End Lift.
