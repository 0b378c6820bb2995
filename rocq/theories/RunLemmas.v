(** Unfolding runs of combinators, away from fuel. *)
From Verif Require Export LawLift.

Section Runs.
Context {T : Type} {V : nat -> Type}.
Variable E : env T V.
Notation gram := (gram T V).

Lemma runs_lim {A} (p : gram A) s i c r : runs E p s i c r <-> lim (fun n => fast E n p s i c) (Ret r).
Proof. symmetry. apply lim_iff; [apply fast_monotone|discriminate]. Qed.
Lemma raises_lim {A} (p : gram A) s i c x : raises E p s i c x <-> lim (fun n => fast E n p s i c) (Raise x).
Proof. symmetry. apply lim_iff; [apply fast_monotone|discriminate]. Qed.
Lemma recovers_lim {A} (p : gram A) s i c ins rem r :
  recovers E p s i c ins rem r <-> lim (fun n => full E n p s i c ins rem) (Ret r).
Proof. symmetry. apply lim_iff; [apply full_monotone|discriminate]. Qed.
Lemma raises_rec_lim {A} (p : gram A) s i c ins rem x :
  raises_rec E p s i c ins rem x <-> lim (fun n => full E n p s i c ins rem) (Raise x).
Proof. symmetry. apply lim_iff; [apply full_monotone|discriminate]. Qed.

Lemma runs_det {A} (p : gram A) s i c r r' : runs E p s i c r -> runs E p s i c r' -> r = r'.
Proof.
  intros H H'. apply runs_lim in H, H'. pose proof (lim_unique _ _ _ H H') as K. injection K as ->. reflexivity.
Qed.
Lemma runs_raises {A} (p : gram A) s i c r x : runs E p s i c r -> raises E p s i c x -> False.
Proof.
  intros H H'. apply runs_lim in H. apply raises_lim in H'. pose proof (lim_unique _ _ _ H H'). discriminate.
Qed.
Lemma recovers_det {A} (p : gram A) s i c ins rem r r' :
  recovers E p s i c ins rem r -> recovers E p s i c ins rem r' -> r = r'.
Proof.
  intros H H'. apply recovers_lim in H, H'. pose proof (lim_unique _ _ _ H H') as K. injection K as ->. reflexivity.
Qed.

Lemma lim_shift {A} (x : nat -> out A) r : lim (fun n => x (S n)) r <-> lim x r.
Proof.
  split; intros [n H].
  - exists (S n). intros [|m] Hm; [lia|apply H; lia].
  - exists n. intros m Hm. apply H. lia.
Qed.
Lemma mono_shift {A} (x : nat -> out A) : mono x -> mono (fun n => x (S n)).
Proof. intros H n m Hm. apply H. lia. Qed.

Lemma yields_runs {A} (p : gram A) s i c v j c' b :
  yields E p s i c v j c' b <-> exists e, runs E p s i c (SOk (Ok v j c' e b)).
Proof.
  split.
  - intros (n & o & H & <- & <- & <- & <-). exists (ok_exp o), n. destruct o; exact H.
  - intros (e & n & H). exists n. eexists. split; [exact H|simpl; auto].
Qed.
Lemma fails_runs {A} (p : gram A) s i c b :
  fails E p s i c b <-> exists l e, runs E p s i c (SErr (Err l e b)).
Proof.
  split.
  - intros (n & e & H & <-). exists (er_loc e), (er_exp e), n. destruct e; exact H.
  - intros (l & e & n & H). exists n. eexists. split; [exact H|simpl; auto].
Qed.

(** outcome of a two-step computation at the limit *)
Lemma lim_bind_iff {A B} (x : nat -> out A) (y : nat -> A -> out B) r :
  mono x -> (forall a, mono (fun n => y n a)) -> r <> NoFuel ->
  (lim (fun n => obind (x n) (y n)) r <->
   (exists a, lim x (Ret a) /\ lim (fun n => y n a) r) \/ (exists e, lim x (Raise e) /\ r = Raise e)).
Proof.
  intros Hx Hy Hr. split; [apply lim_bind_inv; auto|].
  intros [(a & Ha & H)|(e & He & ->)]; [eapply lim_bind_ret; eauto|apply lim_bind_exn; auto].
Qed.
Lemma lim_const_iff {A} (r r' : out A) : lim (fun _ => r) r' <-> r = r'.
Proof.
  split; [intros [n H]; apply (H n); lia|intros ->; apply lim_const].
Qed.
End Runs.
