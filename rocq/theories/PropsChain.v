(** Property C68: the objects that collect expected values. *)
From Verif Require Import DepthBound DepthFullProofs PropsCost PropsCostFull Examples PropsTotal PropsTerm PropsDepth ChainProofs.
Import ListNotations.

(** Collecting expected values in objects instead of lists changes neither the outcome
    of [parse], nor what [unwrap] returns or raises, nor how deeply the parse functions
    call each other. *)
Theorem C68_same :
  forall T V (E : env T V) A n (g : gram T V A) s rec mi get fmt u,
  omap (fun r => snd (cunwrap r u)) (snd (cparse E n g s rec mi get fmt)) =
    omap (fun r => unwrap r u) (parse E n g s rec mi get fmt) /\
  fst (cparse E n g s rec mi get fmt) =
    fst (if rec then parse_nested_rec E n g s mi get fmt else parse_nested E n g s get fmt).
Proof.
  intros. pose proof (cparse_sim E A n g s rec mi get fmt) as [H1 H2]. split; [|exact H1].
  assert (X : snd (if rec then parse_nested_rec E n g s mi get fmt else parse_nested E n g s get fmt)
              = parse E n g s rec mi get fmt).
  { destruct rec; apply C60_nested; exact mi. }
  destruct (snd (cparse E n g s rec mi get fmt)) as [r|e|].
  - destruct H2 as [H2 _]. pose proof (eq_trans (eq_sym X) H2) as Y. rewrite Y. cbn. rewrite fl_unwrap. reflexivity.
  - pose proof (eq_trans (eq_sym X) H2) as Y. rewrite Y. reflexivity.
  - pose proof (eq_trans (eq_sym X) H2) as Y. rewrite Y. reflexivity.
Qed.
Print Assumptions C68_same.

(** Reading the expected values of the errors ([list(expected)] in [unwrap]) suspends
    fewer generators inside one another than parse functions were active at the same
    time during the parse. *)
Theorem C68_depth :
  forall T V (E : env T V) A n (g : gram T V A) s rec mi get fmt r u,
  snd (cparse E n g s rec mi get fmt) = Ret r ->
  fst (cunwrap r u) < fst (cparse E n g s rec mi get fmt).
Proof.
  intros T V E A n g s rec mi get fmt r u H. pose proof (cparse_sim E A n g s rec mi get fmt) as [_ H2].
  rewrite H in H2. destruct H2 as [_ H2]. rewrite Nat.max_0_l in H2.
  destruct (fst (cparse E n g s rec mi get fmt)) as [|d] eqn:Ed.
  - exfalso. pose proof (all_cres_exp _ _ _ H2) as X. unfold low in X. lia.
  - enough (fst (cunwrap r u) <= d) by lia. apply unwrap_low. revert H2. apply all_res_imp. unfold low. lia.
Qed.
Print Assumptions C68_depth.

(** So without Delays and without recovery it is bounded by the parser, whatever the
    input. *)
Theorem C68_no_delay :
  forall T V (E : env T V) A (g : gram T V A) w, no_delay g -> size_le g w ->
  forall s mi get fmt n r u, snd (cparse E n g s false mi get fmt) = Ret r -> fst (cunwrap r u) < w.
Proof.
  intros T V E A g w Hd Hw s mi get fmt n r u H. pose proof (C68_depth _ _ _ _ _ _ _ _ _ _ _ _ u H) as X.
  destruct (C68_same T V E A n g s false mi get fmt u) as [_ Y]. rewrite Y in X.
  pose proof (C60_no_delay T V E A g w Hd Hw s get fmt n). lia.
Qed.
Print Assumptions C68_no_delay.

(** ... and in general at most proportional to the length of the input, with recovery to
    the length of the input and the number of insertions. *)
Theorem C68_linear :
  forall T V (E : env T V) A (g : gram T V A),
  wf_env E -> wf g -> bounded_size E g -> bounded_depth E g ->
  exists k, forall s mi get fmt n r u, (0 <= mi)%Z ->
    (snd (cparse E n g s false mi get fmt) = Ret r -> fst (cunwrap r u) <= k * (List.length s + 1)) /\
    (snd (cparse E n g s true mi get fmt) = Ret r ->
       fst (cunwrap r u) <= k * (List.length s + 1) * (Z.to_nat mi + 2)).
Proof.
  intros T V E A g HE Hg Hs Hd. destruct (C60_linear T V E A g HE Hg Hs Hd) as [k1 H1].
  destruct (C60_recovery T V E A g HE Hg Hs Hd) as [k2 H2].
  exists (k1 + k2). intros s mi get fmt n r u Hmi. split; intros H;
    pose proof (C68_depth _ _ _ _ _ _ _ _ _ _ _ _ u H) as X.
  - destruct (C68_same T V E A n g s false mi get fmt u) as [_ Y]. rewrite Y in X. specialize (H1 s get fmt n). nia.
  - destruct (C68_same T V E A n g s true mi get fmt u) as [_ Y]. rewrite Y in X. specialize (H2 s mi get fmt n Hmi).
    set (l := (List.length s + 1) * (Z.to_nat mi + 2)). rewrite <- Nat.mul_assoc in *. fold l in H2 |- *. nia.
Qed.
Print Assumptions C68_linear.

(** The example of [Examples.v] meets the hypotheses. *)
Theorem C68_case :
  exists k, forall s mi get fmt n r u, (0 <= mi)%Z ->
    (snd (cparse ex_E n ex_top s false mi get fmt) = Ret r -> fst (cunwrap r u) <= k * (List.length s + 1)) /\
    (snd (cparse ex_E n ex_top s true mi get fmt) = Ret r ->
       fst (cunwrap r u) <= k * (List.length s + 1) * (Z.to_nat mi + 2)).
Proof. apply C68_linear; [exact ex_wf_E|exact ex_wf|exact ex_bounded_size|exact ex_bounded_depth]. Qed.
(** The bound is exact: three generators and four calls, with and without recovery. *)
Definition chain_ex : ex_gram (option char * char) :=
  GSeq (GMaybe (ex_sym "-")) (GAlt (GAlt (ex_sym "a") (ex_sym "b")) (ex_sym "c")) pair.
Theorem C68_exact : forall rec, exists r,
  snd (cparse lay_E 50 chain_ex (ex_str "x") rec 5 scannerless_get_loc linecol_fmt) = Ret r /\
  fst (cparse lay_E 50 chain_ex (ex_str "x") rec 5 scannerless_get_loc linecol_fmt) = 4 /\
  fst (cunwrap r false) = 3.
Proof. intros [|]; eexists; vm_compute; repeat split. Qed.

(** *** The bound is attained up to a constant: expr = 'a' (expr?) ('b'?) on "aaa...",
    where 'c' is missing at the end; one [Append] for each 'a'. *)
Definition tail_body : ex_gram Z :=
  GSeq (ex_sym "a") (GSeq (GMaybe (GDelay 0 : ex_gram Z)) (GMaybe (ex_sym "b")) (fun _ _ => 0%Z)) (fun _ r => r).
Definition tail_E : env char ex_V := fun _ => tail_body.
Definition tail_top : ex_gram Z := GSeq (GDelay 0 : ex_gram Z) (ex_sym "c") (fun r _ => r).
Section TailRun.
Context (s : list char) (c : ctx char).
Notation run n g pos := (snd (cfast tail_E n g s pos c)).
Lemma run_hit n a pos : nth_error s pos = Some (ex_ch a) ->
  run (S n) (ex_sym a) pos = Ret (CSOk (COk (ex_ch a) (pos + 1) c (Leaf []) true)).
Proof. intros H. cbn -[nth_error ex_ch]. unfold sym_fast, probe_sym. rewrite H. cbn [obind]. rewrite N.eqb_refl. reflexivity. Qed.
Lemma run_miss n a pos : nth_error s pos = None ->
  exists l, run (S n) (ex_sym a) pos = Ret (CSErr (CErr l (Leaf [String "'" (String a "'")]) false)).
Proof. intros H. cbn -[nth_error ex_ch]. unfold sym_fast, probe_sym. rewrite H. eexists. reflexivity. Qed.
Lemma run_seq {A B C} (p : ex_gram A) (q : ex_gram B) (m : A -> B -> C) n pos v i x b r :
  run n p pos = Ret (CSOk (COk v i c x b)) -> run n q i = Ret r ->
  run (S n) (GSeq p q m) pos = (rc <- csres_fmap (fun w => Ret (m v w)) r ;; Ret (csres_prepend x b rc)).
Proof.
  intros H1 H2. cbn [cfast nest snd]. unfold seq_chain, dbind. rewrite H1. cbn [cok_pos cok_ctx cok_val cok_exp cok_con fst snd].
  rewrite H2. reflexivity.
Qed.
Lemma run_seq_err {A B C} (p : ex_gram A) (q : ex_gram B) (m : A -> B -> C) n pos e :
  run n p pos = Ret (CSErr e) -> run (S n) (GSeq p q m) pos = Ret (CSErr e).
Proof. intros H1. cbn [cfast nest snd]. unfold seq_chain, dbind. rewrite H1. reflexivity. Qed.
Lemma run_maybe {A} (p : ex_gram A) n pos v i x b :
  run n p pos = Ret (CSOk (COk v i c x b)) -> run (S n) (GMaybe p) pos = Ret (CSOk (COk (Some v) i c x b)).
Proof. intros H. cbn [cfast nest snd]. unfold maybe_chain, dbind. rewrite H. reflexivity. Qed.
Lemma run_maybe_err {A} (p : ex_gram A) n pos l x :
  run n p pos = Ret (CSErr (CErr l x false)) -> run (S n) (GMaybe p) pos = Ret (CSOk (COk None pos c x false)).
Proof. intros H. cbn [cfast nest snd]. unfold maybe_chain, dbind. rewrite H. reflexivity. Qed.
Lemma run_delay n pos : run (S n) (GDelay 0 : ex_gram Z) pos = run n tail_body pos.
Proof. reflexivity. Qed.
End TailRun.
Lemma tail_run : forall N k n pos c, pos + S k = N -> 4 * k + 8 < n ->
  exists x, snd (cfast tail_E n (GDelay 0 : ex_gram Z) (repeat (ex_ch "a") N) pos c) = Ret (CSOk (COk 0%Z N c x true)) /\
    k <= height x.
Proof.
  intros N. induction k as [|k IH]; intros n pos c Hp Hn;
    (assert (Hs : nth_error (repeat (ex_ch "a") N) pos = Some (ex_ch "a")) by (apply nth_error_repeat; lia));
    (assert (Hb : nth_error (repeat (ex_ch "a") N) N = None) by (apply nth_error_None; rewrite repeat_length; lia)).
  - destruct n as [|[|[|[|[|[|[|n]]]]]]]; try lia. rewrite run_delay. assert (Hp1 : pos + 1 = N) by lia.
    destruct (run_miss (repeat (ex_ch "a") N) c n "a" N Hb) as [l Hm].
    pose proof (run_seq_err _ _ _ (GSeq (GMaybe (GDelay 0 : ex_gram Z)) (GMaybe (ex_sym "b")) (fun _ _ => 0%Z)) (fun _ r => r) _ _ _ Hm) as H1.
    pose proof (run_maybe_err _ _ (GDelay 0 : ex_gram Z) (S (S (S n))) N l _ H1) as H2.
    destruct (run_miss (repeat (ex_ch "a") N) c (S (S n)) "b" N Hb) as [l' Hm'].
    pose proof (run_maybe_err _ _ _ _ _ _ _ Hm') as H3.
    pose proof (run_seq _ _ _ _ (fun _ _ => 0%Z) _ _ _ _ _ _ _ H2 H3) as H4.
    pose proof (run_hit (repeat (ex_ch "a") N) c (S (S (S (S n)))) "a" pos Hs) as H5. rewrite Hp1 in H5.
    pose proof (run_seq _ _ _ _ (fun _ (r : Z) => r) _ _ _ _ _ _ _ H5 H4) as H6.
    unfold tail_body. rewrite H6. cbn. eexists. split; [reflexivity|lia].
  - destruct n as [|[|[|[|n]]]]; try lia. rewrite run_delay.
    destruct (IH n (pos + 1) c ltac:(lia) ltac:(lia)) as (x & Hx & Hh).
    pose proof (run_maybe _ _ _ _ _ _ _ _ _ Hx) as H2.
    destruct n as [|n]; [lia|].
    destruct (run_miss (repeat (ex_ch "a") N) c n "b" N Hb) as [l' Hm'].
    pose proof (run_maybe_err _ _ _ _ _ _ _ Hm') as H3.
    pose proof (run_seq _ _ _ _ (fun _ _ => 0%Z) _ _ _ _ _ _ _ H2 H3) as H4.
    pose proof (run_hit (repeat (ex_ch "a") N) c (S (S n)) "a" pos Hs) as H5.
    pose proof (run_seq _ _ _ _ (fun _ (r : Z) => r) _ _ _ _ _ _ _ H5 H4) as H6.
    unfold tail_body. rewrite H6. cbn. eexists. split; [reflexivity|]. cbn. lia.
Qed.
Theorem C68_linear_attained : forall N mi get fmt u, exists n r,
  snd (cparse tail_E n tail_top (repeat (ex_ch "a") (S N)) false mi get fmt) = Ret r /\
  N <= fst (cunwrap r u).
Proof.
  intros N mi get fmt u. set (n := 4 * N + 9).
  destruct (tail_run (S N) N n 0 (init_ctx get) ltac:(lia) ltac:(unfold n; lia)) as (x & Hx & Hh).
  assert (Hb : nth_error (repeat (ex_ch "a") (S N)) (S N) = None) by (apply nth_error_None; rewrite repeat_length; lia).
  destruct (run_miss (repeat (ex_ch "a") (S N)) (init_ctx get) (4 * N + 8) "c" (S N) Hb) as [l Hm].
  replace (S (4 * N + 8)) with n in Hm by (unfold n; lia).
  pose proof (run_seq _ _ _ _ (fun (r : Z) _ => r) _ _ _ _ _ _ _ Hx Hm) as H.
  exists (S n). unfold cparse, dbind, tail_top. cbv zeta. rewrite H. cbn. eexists. split; [reflexivity|]. cbn. lia.
Qed.
Print Assumptions C68_linear_attained.
