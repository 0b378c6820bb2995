(** Property C60: how deeply parse functions call each other. *)
From Coq Require Import ArithRing.
From Verif Require Import DepthBound DepthFullProofs PropsCost PropsCostFull Examples PropsTotal PropsTerm.

(** The run with depths is the run. *)
Theorem C60_nested :
  forall T V (E : env T V) A n (g : gram T V A) s mi get fmt,
  snd (parse_nested E n g s get fmt) = parse E n g s false mi get fmt /\
  snd (parse_nested_rec E n g s mi get fmt) = parse E n g s true mi get fmt.
Proof.
  intros. split.
  - unfold parse_nested, parse. simpl. rewrite dfast_fast. reflexivity.
  - unfold parse_nested_rec, parse. simpl. rewrite dfull_full. reflexivity.
Qed.
Print Assumptions C60_nested.

(** Without Delays, without recovery: never deeper than the parser itself, on any input
    (also for input where it raises). *)
Theorem C60_no_delay :
  forall T V (E : env T V) A (g : gram T V A) w, no_delay g -> size_le g w ->
  forall s get fmt n, fst (parse_nested E n g s get fmt) <= w.
Proof. intros. unfold parse_nested. cbn [fst]. apply flat_depth; auto. Qed.
Print Assumptions C60_no_delay.

(** With Delays: at most proportional to the length of the input. *)
Theorem C60_linear :
  forall T V (E : env T V) A (g : gram T V A),
  wf_env E -> wf g -> bounded_size E g -> bounded_depth E g ->
  exists k, forall s get fmt n, fst (parse_nested E n g s get fmt) <= k * (List.length s + 1).
Proof.
  intros T V E A g HE Hg (m & Hm & HM) (r & Hr & HR).
  exists (m + m * r + DK m r). intros s get fmt n. unfold parse_nested. cbn [fst].
  pose proof (fast_depth E s HE m r HM HR n A g m r 0 (init_ctx get) Hm Hr Hg ltac:(lia)) as B.
  rewrite Nat.sub_0_r in B. nia.
Qed.
Print Assumptions C60_linear.

(** With recovery: at most proportional to the length of the input and to the number of
    insertions allowed. *)
Theorem C60_recovery :
  forall T V (E : env T V) A (g : gram T V A),
  wf_env E -> wf g -> bounded_size E g -> bounded_depth E g ->
  exists k, forall s mi get fmt n, (0 <= mi)%Z ->
    fst (parse_nested_rec E n g s mi get fmt) <= k * (List.length s + 1) * (Z.to_nat mi + 2).
Proof.
  intros T V E A g HE Hg (m & Hm & HM) (r & Hr & HR).
  exists (m + m * r + DK m r). intros s mi get fmt n Hmi. unfold parse_nested_rec. cbn [fst].
  pose proof (full_depth E s HE m r HM HR mi Hmi n A g m r 0 (init_ctx get) (Some mi) Hm Hr Hg ltac:(lia) ltac:(intros z [= <-]; auto)) as B.
  unfold units in B. rewrite Nat.sub_0_r in B. cbn [rank] in B.
  set (l := List.length s) in *. set (i := Z.to_nat mi) in *. set (K := DK m r) in *.
  assert (H1 : l * (i + 2) + S i <= (l + 1) * (i + 2)) by lia.
  assert (H2 : K * (l * (i + 2) + S i) <= K * ((l + 1) * (i + 2))) by (apply Nat.mul_le_mono_l; auto).
  assert (H3 : 1 <= (l + 1) * (i + 2)) by lia.
  assert (H4 : (m + m * r) * 1 <= (m + m * r) * ((l + 1) * (i + 2))) by (apply Nat.mul_le_mono_l; auto).
  replace ((m + m * r + K) * (l + 1) * (i + 2)) with ((m + m * r) * ((l + 1) * (i + 2)) + K * ((l + 1) * (i + 2))) by ring.
  lia.
Qed.
Print Assumptions C60_recovery.

(** Valid input: recovery goes exactly as deep as parsing without it. *)
Theorem C60_valid_same_depth :
  forall T V (E : env T V) A (g : gram T V A) s mi get fmt n o,
  no_recover g -> (forall d, no_recover (E d)) ->
  parse E n g s false mi get fmt = Ret (ResultWrapper (ROk o) fmt) ->
  fst (parse_nested_rec E n g s mi get fmt) = fst (parse_nested E n g s get fmt).
Proof.
  intros T V E A g s mi get fmt n o Hg HE H. unfold parse in H.
  pose proof (depth_sim E n A g s 0 (init_ctx get) mi (Some mi)) as C.
  destruct (traced_dnear E n A g s 0 (init_ctx get)) as (_ & _ & X).
  unfold parse_nested_rec, parse_nested. cbn [fst]. unfold dcheap in C. rewrite dfast_fast in C.
  rewrite <- (X (conj Hg HE)) in C.
  destruct (fast E n g s 0 (init_ctx get)) as [[o'|e]| |]; try discriminate. cbn in *. lia.
Qed.
Print Assumptions C60_valid_same_depth.
(** ... and for a parser without Delays it is bounded by the parser, for every valid
    input *)
Theorem C60_valid_no_delay :
  forall T V (E : env T V) A (g : gram T V A) w s mi get fmt n o,
  no_delay g -> size_le g w ->
  parse E n g s false mi get fmt = Ret (ResultWrapper (ROk o) fmt) ->
  fst (parse_nested_rec E n g s mi get fmt) <= w.
Proof.
  intros T V E A g w s mi get fmt n o Hd Hw H. unfold parse in H.
  pose proof (depth_sim E n A g s 0 (init_ctx get) mi (Some mi)) as C.
  assert (Hd' : no_delay (traced g)).
  { clear - Hd. unfold no_delay in *. induction g; cbn in *; intuition. }
  pose proof (flat_depth (tracedE E) n A (traced g) w s 0 (init_ctx get) (traced_size A g w Hw) Hd') as F.
  unfold parse_nested_rec. cbn [fst]. unfold dcheap in C. rewrite dfast_fast in C.
  destruct (fast E n g s 0 (init_ctx get)) as [[o'|e]| |]; try discriminate. lia.
Qed.
Print Assumptions C60_valid_no_delay.

(** ** Concrete cases *)
Lemma ex_bounded_size : bounded_size ex_E ex_top.
Proof.
  destruct (size_exists ex_top) as [a Ha]; [solve_gall|]. destruct (size_exists ex_expr) as [b Hb]; [solve_gall|].
  exists (a + b). split; [eapply size_mono; [|exact Ha]; lia|]. intros d. eapply size_mono; [|exact Hb]. lia.
Qed.
Lemma ex_bounded_depth : bounded_depth ex_E ex_top.
Proof.
  exists 1. assert (L : forall d, left_depth ex_E 0 (ex_E d)) by (intros d d' H; exact (ex_left d' H)).
  split; [intros d _; apply L|]. intros d. apply left_mono, L.
Qed.
Theorem C60_case :
  (exists k, forall s get fmt n, fst (parse_nested ex_E n ex_top s get fmt) <= k * (List.length s + 1)) /\
  (exists k, forall s mi get fmt n, (0 <= mi)%Z -> fst (parse_nested_rec ex_E n ex_top s mi get fmt) <= k * (List.length s + 1) * (Z.to_nat mi + 2)).
Proof.
  split; [apply C60_linear|apply C60_recovery]; try exact ex_wf_E; try exact ex_wf; try exact ex_bounded_size; exact ex_bounded_depth.
Qed.
(** a flat list of numbers does not go deeper than one of them; nested parentheses do *)
Theorem C60_case_count :
  fst (parse_nested ex_E 150 ex_top (ex_str "1+2") scannerless_get_loc linecol_fmt) =
  fst (parse_nested ex_E 150 ex_top (ex_str "1+2+3+4+5+6+7") scannerless_get_loc linecol_fmt) /\
  fst (parse_nested ex_E 150 ex_top (ex_str "1") scannerless_get_loc linecol_fmt) <
  fst (parse_nested ex_E 150 ex_top (ex_str "(1)") scannerless_get_loc linecol_fmt) /\
  fst (parse_nested ex_E 150 ex_top (ex_str "(1)") scannerless_get_loc linecol_fmt) <
  fst (parse_nested ex_E 150 ex_top (ex_str "((1))") scannerless_get_loc linecol_fmt).
Proof. vm_compute. lia. Qed.

(** *** the bounds are attained: '(' '(' '(' ... *)
Theorem C60_linear_attained : forall N get fmt, exists n,
  fst (parse_nested right_E n (GDelay 0 : ex_gram Z) (repeat (ex_ch "a") N) get fmt) = 2 * N + 3 /\
  exists r, snd (parse_nested right_E n (GDelay 0 : ex_gram Z) (repeat (ex_ch "a") N) get fmt) = Ret r.
Proof.
  assert (H : forall N k n pos c, pos + k = N -> 2 * k + 2 < n ->
    exists e, dfast right_E n (GDelay 0 : ex_gram Z) (repeat (ex_ch "a") N) pos c = (2 * k + 3, Ret (SErr e))).
  { intros N. induction k as [|k IH]; intros n pos c Hp Hn.
    - destruct n as [|[|[|n]]]; try lia.
      assert (Hs : nth_error (repeat (ex_ch "a") N) pos = None) by (apply nth_error_None; rewrite repeat_length; lia).
      cbn -[nth_error ex_ch]. unfold seq_depth, sym_fast, probe_sym. rewrite Hs. eexists. reflexivity.
    - destruct n as [|[|n]]; try lia.
      assert (Hs : nth_error (repeat (ex_ch "a") N) pos = Some (ex_ch "a")).
      { rewrite nth_error_repeat; auto. lia. }
      destruct n as [|n]; [lia|].
      change (dfast right_E (S (S (S n))) (GDelay 0 : ex_gram Z) (repeat (ex_ch "a") N) pos c) with
        (nest (nest (seq_depth (fun s pos c => nest (dret (@sym_fast char N.eqb (ex_ch "a") "'a'" s pos c)))
          (dfast right_E (S n) (GDelay 0 : ex_gram Z)) (fun _ r => r) (repeat (ex_ch "a") N) pos c))).
      unfold seq_depth at 1, sym_fast, probe_sym. rewrite Hs. unfold dbind at 1. cbn [nest dret fst snd N.eqb obind ex_ch].
      rewrite N.eqb_refl. cbn [obind ok_val ok_pos ok_ctx fst snd].
      destruct (IH (S n) (pos + 1) c ltac:(lia) ltac:(lia)) as [e He]. rewrite He.
      unfold dbind, nest, dret. cbn [fst snd sres_fmap obind sres_prepend]. eexists. apply (f_equal (fun x => (x, _))). lia. }
  intros N get fmt. exists (2 * N + 3). unfold parse_nested. destruct (H N N (2 * N + 3) 0 (init_ctx get) ltac:(lia) ltac:(lia)) as [e He].
  rewrite He. cbn. split; [lia|]. eexists. reflexivity.
Qed.

(** *** left recursion: as deep as the interpreter allows *)
Theorem C60_left_recursion_unbounded : forall x s mi get fmt n,
  fst (parse_nested (left_E x) n (GDelay 0 : ex_gram Z) s get fmt) = n /\
  fst (parse_nested_rec (left_E x) n (GDelay 0 : ex_gram Z) s mi get fmt) = n.
Proof.
  intros x s mi get fmt.
  assert (HF : forall n c, dfast (left_E x) n (GDelay 0) s 0 c = (n, NoFuel) /\
    dfast (left_E x) (S n) (GDelay 0) s 0 c = (S n, NoFuel)).
  { induction n as [|n IH]; intros c; [split; reflexivity|]. split; [apply IH|].
    cbn [dfast left_E seql]. unfold seq_depth. destruct (IH c) as [-> _]. reflexivity. }
  assert (HG : forall n c rem, dfull (left_E x) n (GDelay 0) s 0 c mi rem = (n, NoFuel) /\
    dfull (left_E x) (S n) (GDelay 0) s 0 c mi rem = (S n, NoFuel)).
  { induction n as [|n IH]; intros c rem; [split; reflexivity|]. split; [apply IH|].
    cbn [dfull left_E seql]. unfold seq_depthr. destruct (IH c rem) as [-> _]. reflexivity. }
  intros n. unfold parse_nested, parse_nested_rec. cbn [fst].
  pose proof (proj1 (HF n (init_ctx get))) as H1. pose proof (proj1 (HG n (init_ctx get) (Some mi))) as H2.
  split; [exact (f_equal fst H1)|exact (f_equal fst H2)].
Qed.

(** *** recovery recurses where parsing loops: (a b)* on (aab)^k, one error in every
    block *)
Lemma dab_ok m (s : list char) i c ins : nth_error s i = Some (ex_ch "a") -> nth_error s (i + 1) = Some (ex_ch "b") ->
  exists k o, dfull ex_E (S (S m)) ab_p s i c ins None = (k, Ret (ROk o)) /\ ok_pos o = i + 1 + 1 /\ ok_con o = true.
Proof.
  intros H1 H2. destruct (ab_ok m s i c ins H1 H2) as (k & o & H & J). exists (fst (dfull ex_E (S (S m)) ab_p s i c ins None)), o.
  split; [|exact J]. rewrite (surjective_pairing (dfull _ _ _ _ _ _ _ _)) at 1. f_equal.
  rewrite dfull_full. rewrite <- cfull_full, H. reflexivity.
Qed.
Lemma dab_end m (s : list char) i c ins : nth_error s i = None ->
  exists k e, dfull ex_E (S (S m)) ab_p s i c ins None = (k, Ret (RErr e)) /\ er_con e = false.
Proof.
  intros H1. destruct (ab_end m s i c ins H1) as (k & o & H & J & _). exists (fst (dfull ex_E (S (S m)) ab_p s i c ins None)), o.
  split; [|exact J]. rewrite (surjective_pairing (dfull _ _ _ _ _ _ _ _)) at 1. f_equal.
  rewrite dfull_full. rewrite <- cfull_full, H. reflexivity.
Qed.
Lemma dab_rec m (s : list char) i c ins : ins <> 0%Z -> nth_error s i = Some (ex_ch "a") -> nth_error s (i + 1) = Some (ex_ch "a") ->
  nth_error s (i + 2) = Some (ex_ch "b") ->
  exists k r1 r2 mn l x cn, dfull ex_E (S (S m)) ab_p s i c ins None = (k, Ret (RRec (Recd [r1; r2] mn l x cn))) /\
    r_pos r1 = i + 1 /\ r_pos r2 = i + 3.
Proof.
  intros H0 H1 H2 H3. destruct (ab_rec m s i c ins H0 H1 H2 H3) as (k & r1 & r2 & mn & l & x & cn & H & J).
  exists (fst (dfull ex_E (S (S m)) ab_p s i c ins None)), r1, r2, mn, l, x, cn.
  split; [|exact J]. rewrite (surjective_pairing (dfull _ _ _ _ _ _ _ _)) at 1. f_equal.
  rewrite dfull_full. rewrite <- cfull_full, H. reflexivity.
Qed.
Lemma dab_many k m ins : ins <> 0%Z -> forall r n b vs i c, i + 3 * r = 3 * k -> 2 * r < n ->
  exists cnt R, many_depthr (dfull ex_E (S (S m)) ab_p) n b vs (aab k) i c ins = (cnt, Ret R) /\ r <= cnt.
Proof.
  intros Hz. induction r as [|r IH]; intros n b vs i c Hi Hn.
  - destruct n as [|n]; [lia|]. cbn [many_depthr].
    destruct (dab_end m (aab k) i c ins) as (q & e & Hq & He); [apply nth_error_None; rewrite aab_len; lia|].
    rewrite Hq. unfold dbind. cbn [fst snd]. rewrite He. cbn [dret fst snd]. do 2 eexists. split; [reflexivity|]. lia.
  - destruct n as [|[|n]]; [lia|lia|].
    destruct (aab_nth k (k - S r) ltac:(lia)) as (A1 & A2 & A3). replace (3 * (k - S r)) with i in * by lia.
    remember (S n) as n1 eqn:En. cbn [many_depthr].
    destruct (dab_rec m (aab k) i c ins Hz A1 A2 A3) as (q & r1 & r2 & mn & l & x & cn & Hq & P1 & P2).
    rewrite Hq. unfold dbind at 1. cbn [fst snd]. unfold continue_depth. cbn [rc_reps dflat_map].
    assert (J1 : exists cnt R, nest (many_depthr (dfull ex_E (S (S m)) ab_p) n1 false [] (aab k) (r_pos r1) (r_ctx r1) ins) = (cnt, Ret R)).
    { subst n1. cbn [many_depthr]. rewrite P1.
      destruct (dab_ok m (aab k) (i + 1) (r_ctx r1) ins) as (q' & o & Hq' & Ho & Hc); [auto|replace (i + 1 + 1) with (i + 2) by lia; auto|].
      rewrite Hq'. unfold dbind at 1. cbn [fst snd]. rewrite Hc.
      destruct (IH n true ([] ++ [ok_val o]) (ok_pos o) (ok_ctx o) ltac:(lia) ltac:(lia)) as (cnt & R & HR & J).
      rewrite HR. unfold nest. cbn [fst snd]. do 2 eexists. reflexivity. }
    destruct (IH n1 false [] (r_pos r2) (r_ctx r2) ltac:(lia) ltac:(lia)) as (cnt2 & R2 & HR2 & J2).
    destruct J1 as (cnt1 & R1 & HR1).
    unfold cont_one_depth. rewrite HR1, HR2. unfold dbind, nest, dret. cbn [fst snd].
    destruct R1 as [o1|e1|rc1], R2 as [o2|e2|rc2]; cbn [fst snd]; (do 2 eexists; split; [reflexivity|lia]).
Qed.
Theorem C60_recovery_recurses : forall k mi get fmt, mi <> 0%Z ->
  (exists n R, snd (parse_nested_rec ex_E n ab (aab k) mi get fmt) = Ret (ResultWrapper R fmt) /\
    k < fst (parse_nested_rec ex_E n ab (aab k) mi get fmt)) /\
  List.length (aab k) = 3 * k /\
  (forall s n, fst (parse_nested ex_E n ab s get fmt) <= 4).
Proof.
  intros k mi get fmt Hm. split; [|split; [apply aab_len|]].
  - exists (2 * k + 3).
    destruct (dab_many k (2 * k) mi Hm k (2 * k + 2) false [] 0 (init_ctx get) ltac:(lia) ltac:(lia)) as (cnt & R & HR & J1).
    assert (Hf : dfull ex_E (2 * k + 3) ab (aab k) 0 (init_ctx get) mi (Some mi) = (S cnt, Ret R)).
    { replace (2 * k + 3) with (S (S (S (2 * k)))) by lia. unfold ab. cbn [dfull].
      replace (2 * k + 2) with (S (S (2 * k))) in HR by lia.
      unfold nest at 1. cbn [dfull] in HR. rewrite HR. reflexivity. }
    exists R. unfold parse_nested_rec. rewrite Hf. cbn [fst snd obind]. split; [reflexivity|]. lia.
  - intros s n. apply C60_no_delay; [solve_gall|]. cbn. exists 3. split; [|lia]. exists 1, 1. lia.
Qed.
Print Assumptions C60_recovery_recurses.
