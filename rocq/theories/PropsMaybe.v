(** C16 for Python's values: [maybe] returns the value itself or None, without the
    wrapping [Some] of the model.  [none] stands for None in the type of values. *)
From Verif Require Import PropsLaws PropsRefactor LawLift Lim Examples.
Import ListNotations.

Definition unopt {A} (none : A) (o : option A) : A := match o with Some v => v | None => none end.
(** p.maybe() with bare values *)
Definition pymaybe {T V A} (none : A) (p : gram T V A) : gram T V A := GFmap (GMaybe p) (fun o => Ret (unopt none o)).
(** core/combinators.py:293-303  _maybe_fast, 306-318 _maybe, word for word *)
Definition pymaybe_fast {T A} (none : A) (p : pfast T A) : pfast T A :=
  fun s pos c => r <- p s pos c ;;
    if sres_con r || (match r with SOk _ => true | SErr _ => false end) then Ret r
    else Ret (SOk (Ok none pos c (match r with SOk o => ok_exp o | SErr e => er_exp e end) false)).
Definition pymaybe_full {T A} (none : A) (p : pfull T A) : pfull T A :=
  fun s pos c ins rem => r <- p s pos c ins None ;;
    if res_con r || (match r with ROk _ => true | _ => false end) then Ret r
    else Ret (ROk (Ok none pos c (res_exp r) false)).

Lemma pymaybe_fast_code {T A} (none : A) (p : pfast T A) s pos c :
  fmap_fast (maybe_fast p) (fun o => Ret (unopt none o)) s pos c = pymaybe_fast none p s pos c.
Proof.
  unfold fmap_fast, maybe_fast, pymaybe_fast. destruct (p s pos c) as [[[v j c' x b]|[l x []]]|e|]; cbn; auto.
  rewrite orb_true_r. reflexivity.
Qed.
Lemma vrec_unopt {T A} (none : A) (rc : recr T A) : vrec (unopt none) (vrec Some rc) = rc.
Proof.
  destruct rc as [reps mn l x b]. unfold vrec. cbn. rewrite map_map. f_equal. erewrite map_ext; [apply map_id|]. intros []; reflexivity.
Qed.
Lemma pymaybe_full_code {T A} (none : A) (p : pfull T A) s pos c ins rem :
  fmap_full (maybe_full p) (fun o => Ret (unopt none o)) s pos c ins rem = pymaybe_full none p s pos c ins rem.
Proof.
  rewrite fmap_vres. unfold maybe_full, pymaybe_full, omap.
  destruct (p s pos c ins None) as [r|e|]; cbn [obind]; auto. rewrite res_fmap_pure.
  destruct r as [[v j c' x b]|[l x []]|rc]; cbn; auto.
  - rewrite orb_true_r. reflexivity.
  - rewrite orb_false_r. destruct (rc_con rc) eqn:H; cbn; auto. do 2 f_equal. pose proof (vrec_unopt none rc) as K. unfold vrec at 2 in K. rewrite <- H. exact K.
Qed.

Section Maybe.
Context {T : Type} {V : nat -> Type}.
Variable E : env T V.
Lemma bf_maybe_u {A} (p : gram T V A) u : between_fast E p u -> between_fast E (GMaybe p) (fun n => maybe_fast (u n)).
Proof.
  intros [H1 [k H2]].
  assert (M : forall a b : pfast T A, lefast a b -> lefast (maybe_fast a) (maybe_fast b)).
  { intros a b H s pos c. unfold maybe_fast. apply lef_bind; [apply H|intros; apply lef_refl]. }
  split.
  - intros [|n]; [apply nofuel_fast|]. apply M. eapply lefast_trans; [|apply H1]. apply lf; lia.
  - exists (S k). intros n [|m] Hm; [lia|]. apply M. apply H2. lia.
Qed.
Lemma bF_maybe_u {A} (p : gram T V A) u : between_full E p u -> between_full E (GMaybe p) (fun n => maybe_full (u n)).
Proof.
  intros [H1 [k H2]].
  assert (M : forall a b : pfull T A, lefull a b -> lefull (maybe_full a) (maybe_full b)).
  { intros a b H s pos c ins rem. unfold maybe_full. apply lef_bind; [apply H|intros; apply lef_refl]. }
  split.
  - intros [|n]; [apply nofuel_full|]. apply M. eapply lefull_trans; [|apply H1]. apply lF; lia.
  - exists (S k). intros n [|m] Hm; [lia|]. apply M. apply H2. lia.
Qed.
Lemma bf_pymaybe {A} (none : A) (p : gram T V A) u : between_fast E p u -> between_fast E (pymaybe none p) (fun n => pymaybe_fast none (u n)).
Proof.
  intros H. assert (K : between_fast E (pymaybe none p) (fun n => fmap_fast (maybe_fast (u n)) (fun o => Ret (unopt none o)))) by apply bf_fmap, bf_maybe_u, H.
  destruct K as [K1 [k K2]]. split.
  - intros n s pos c. rewrite <- pymaybe_fast_code. apply K1.
  - exists k. intros n m Hm s pos c. rewrite <- pymaybe_fast_code. apply K2. exact Hm.
Qed.
Lemma bF_pymaybe {A} (none : A) (p : gram T V A) u : between_full E p u -> between_full E (pymaybe none p) (fun n => pymaybe_full none (u n)).
Proof.
  intros H. assert (K : between_full E (pymaybe none p) (fun n => fmap_full (maybe_full (u n)) (fun o => Ret (unopt none o)))) by apply bF_fmap, bF_maybe_u, H.
  destruct K as [K1 [k K2]]. split.
  - intros n s pos c ins rem. rewrite <- pymaybe_full_code. apply K1.
  - exists k. intros n m Hm s pos c ins rem. rewrite <- pymaybe_full_code. apply K2. exact Hm.
Qed.
(** [pymaybe] is what the code computes *)
Theorem C16_python_maybe A (none : A) (p : gram T V A) s i c :
  (forall r, runs E (pymaybe none p) s i c r <-> exists n, pymaybe_fast none (fast E n p) s i c = Ret r) /\
  (forall ins rem r, recovers E (pymaybe none p) s i c ins rem r <-> exists n, pymaybe_full none (full E n p) s i c ins rem = Ret r).
Proof.
  split.
  - apply (agree_between_fast E True (pymaybe none p) _ s i c (bf_pymaybe none p _ (bf_self E p))).
  - intros ins rem. apply (agree_between_full E True (pymaybe none p) _ s i c ins rem (bF_pymaybe none p _ (bF_self E p))).
Qed.
(** p.maybe() is p | Pure(None) *)
Theorem C16_python_choice A (none : A) (p : gram T V A) : same E (pymaybe none p) (GAlt p (GPure none)).
Proof.
  eapply same_laws.
  - apply bf_pymaybe, bf_self.
  - apply bF_pymaybe, bF_self.
  - apply bf_alt; [apply bf_self|apply bf_pure].
  - apply bF_alt; [apply bF_self|apply bF_pure].
  - intros n s pos c _. apply outeq_eq. unfold pymaybe_fast, alt_fast. destruct (fast E n p s pos c) as [[[v j c' x []]|[l x []]]|e|]; cbn; auto.
    rewrite app_nil_r. reflexivity.
  - intros n s pos c ins rem _. apply outeq_eq. unfold pymaybe_full, alt_full.
    destruct (full E n p s pos c ins None) as [[[v j c' x []]|[l x []]|[reps mn l x []]]|e|]; cbn; unfold Append; rewrite ?app_nil_r; reflexivity.
Qed.
(** twice is once *)
Theorem C16_python_twice A (none : A) (p : gram T V A) : same E (pymaybe none (pymaybe none p)) (pymaybe none p).
Proof.
  eapply same_laws.
  - apply bf_pymaybe, bf_pymaybe, bf_self.
  - apply bF_pymaybe, bF_pymaybe, bF_self.
  - apply bf_pymaybe, bf_self.
  - apply bF_pymaybe, bF_self.
  - intros n s pos c _. apply outeq_eq. unfold pymaybe_fast. destruct (fast E n p s pos c) as [[[v j c' x []]|[l x []]]|e|]; reflexivity.
  - intros n s pos c ins rem _. apply outeq_eq. unfold pymaybe_full.
    destruct (full E n p s pos c ins None) as [[[v j c' x []]|[l x []]|[reps mn l x []]]|e|]; reflexivity.
Qed.
End Maybe.
Print Assumptions C16_python_maybe.
Print Assumptions C16_python_choice.
Print Assumptions C16_python_twice.

(** Case: the optional sign of a number; None is 0 here *)
Example C16_python_case :
  let p := pymaybe 0%N (ex_sym "-") in
  yields ex_E (seqr p ex_digit) (ex_str "-7") 0 (init_ctx default_get_loc) 7%Z 2 (init_ctx default_get_loc) true /\
  yields ex_E p (ex_str "7") 0 (init_ctx default_get_loc) 0%N 0 (init_ctx default_get_loc) false.
Proof. split; exists 20; eexists; (split; [vm_compute; reflexivity|auto]). Qed.
