(** Property C57: without [attempt], parsing takes a number of steps proportional to
    the length of the input; with [attempt] it can take exponentially many. *)
From Verif Require Import CostProofs Examples PropsTotal.

(** The counted run is the run. *)
Theorem C57_counted :
  forall T V (E : env T V) A n (g : gram T V A) s mi get fmt,
  snd (parse_counted E n g s get fmt) = parse E n g s false mi get fmt.
Proof. intros. unfold parse_counted, parse. simpl. rewrite cfast_fast. reflexivity. Qed.
Print Assumptions C57_counted.

(** ** C57 *)
Theorem C57_linear :
  forall T V (E : env T V) A (g : gram T V A),
  wf_env E -> wf g -> no_attempt g -> (forall d, no_attempt (E d)) ->
  bounded_size E g -> bounded_depth E g ->
  exists k, forall s get fmt n, fst (parse_counted E n g s get fmt) <= k * (List.length s + 1).
Proof.
  intros T V E A g HE Hg Ha HA (m & Hm & HM) (r & Hr & HR).
  exists (K (3 ^ m) r + 3 ^ m * QM (3 ^ m) r). intros s get fmt n. unfold parse_counted. simpl.
  set (M := 3 ^ m) in *.
  assert (HM' : forall d, weight_le (E d) M) by (intros d; apply weight_of_size, HM).
  pose proof (cost_bound E s HE M r HM' HR HA n A g M (S r) 0 (init_ctx get)
    (weight_of_size _ _ _ Hm) ltac:(lia) ltac:(lia) (left_mono E r _ g Hr) Hg Ha ltac:(lia)) as B.
  apply (bnd_low E s M r HM' M (S r) 0) in B; [|lia]. unfold low in B.
  pose proof (cfast_fast E n A g s 0 (init_ctx get)) as HF.
  destruct (snd (cfast E n g s 0 (init_ctx get))) as [[o|e]|e|]; rewrite ?Nat.sub_0_r in B.
  - destruct (fast_info E s HE A g 0 (init_ctx get) n (SOk o) Hg ltac:(lia) (eq_sym HF)) as (Hp & _). nia.
  - nia.
  - nia.
  - nia.
Qed.
Print Assumptions C57_linear.

(** *** for parsers made of finitely many Delays, without [bind] *)
Definition no_bind {T V A} (g : gram T V A) : Prop :=
  gall (fun B q => match q with GBind _ _ => False | _ => True end) g.
Lemma size_mono {T V A} (g : gram T V A) n m : n <= m -> size_le g n -> size_le g m.
Proof.
  intros H. destruct g; simpl; try lia;
  try (intros (a & Ha & Hn); exists a; split; auto; lia);
  (intros (a & b & Ha & Hb & Hn); exists a, b; split; auto; split; auto; lia).
Qed.
Lemma size_exists {T V A} (g : gram T V A) : no_bind g -> exists n, size_le g n.
Proof.
  unfold no_bind. induction g; simpl; intros [Hn Hs]; try (exists 1; lia);
  try (destruct (IHg Hs) as [a Ha]; exists (a + 1), a; split; auto; fail);
  try contradiction;
  destruct Hs as [H1 H2]; destruct (IHg1 H1) as [a Ha], (IHg2 H2) as [b Hb]; exists (a + b + 1), a, b; auto.
Qed.
Lemma undef_calls {T V} (E : env T V) A (g : gram T V A) d : lcall E A g d -> match g with GUndef => False | _ => True end.
Proof. destruct 1; exact I. Qed.
Theorem C57_finite :
  forall T V (E : env T V) A (g : gram T V A) (delays : nat) (rank : nat -> nat),
  wf_env E -> wf g -> no_attempt g -> (forall d, no_attempt (E d)) ->
  no_bind g -> (forall d, no_bind (E d)) -> (forall d, delays <= d -> E d = GUndef) ->
  (forall d d', lcall E (V d) (E d) d' -> rank d' < rank d) ->
  exists k, forall s get fmt n, fst (parse_counted E n g s get fmt) <= k * (List.length s + 1).
Proof.
  intros T V E A g N rk HE Hg Ha HA Hb HB HF Hrk. apply C57_linear; auto.
  - destruct (size_exists g Hb) as [m Hm].
    assert (H : exists k, forall d, d < N -> size_le (E d) k).
    { clear - HB. induction N as [|N [k IH]]; [exists 0; intros; lia|].
      destruct (size_exists (E N) (HB N)) as [a Ha]. exists (max a k). intros d Hd.
      destruct (Nat.eq_dec d N) as [->|Hn]; [eapply size_mono; [|exact Ha]; lia|].
      eapply size_mono; [|apply IH; lia]. lia. }
    destruct H as [k Hk]. exists (max 1 (max m k)). split; [eapply size_mono; [|exact Hm]; lia|].
    intros d. destruct (Nat.lt_ge_cases d N) as [H|H].
    + eapply size_mono; [|apply Hk, H]. lia.
    + rewrite (HF d H). change (1 <= max 1 (max m k)). lia.
  - assert (H : exists r, forall d, rk d <= r \/ N <= d).
    { clear. induction N as [|N [r IH]]; [exists 0; intros; right; lia|]. exists (max r (rk N)). intros d.
      destruct (IH d) as [H|H]; [left; lia|]. destruct (Nat.eq_dec d N) as [->|Hn]; [left; lia|right; lia]. }
    destruct H as [r Hr].
    assert (L : forall k d, rk d <= k -> left_depth E k (E d)).
    { induction k as [|k IH]; intros d Hd d' Hc; apply Hrk in Hc; [lia|]. apply IH. lia. }
    assert (L2 : forall d, left_depth E r (E d)).
    { intros d. destruct (Hr d) as [H|H]; auto. rewrite (HF d H). destruct r; intros d' Hc.
      - exact (undef_calls _ _ _ _ Hc).
      - destruct (undef_calls _ _ _ _ Hc). }
    exists (S r). split; [|intros d; apply left_mono; auto]. intros d _. auto.
Qed.
Print Assumptions C57_finite.

(** ** Concrete cases *)
(** the expression grammar: at most [k] calls per character *)
Lemma ex_left d : lcall ex_E _ ex_expr d -> False.
Proof.
  intros H. apply lcall_inv in H. apply lcall_inv in H.
  destruct H as [H|[[v H] _]]; [|eapply ex_value_not_empty; eauto].
  apply lcall_inv in H. apply lcall_inv in H as [H|H].
  - apply lcall_inv in H. apply lcall_inv in H. apply lcall_inv in H. exact H.
  - apply lcall_inv in H as [H|[[v H] _]]; [apply lcall_inv in H; exact H|eapply ex_sym_not_empty; eauto].
Qed.
Theorem C57_case : exists k, forall s get fmt n, fst (parse_counted ex_E n ex_top s get fmt) <= k * (List.length s + 1).
Proof.
  apply C57_linear; [exact ex_wf_E|exact ex_wf|solve_gall|intros d; solve_gall| |].
  - destruct (size_exists ex_top) as [a Ha]; [solve_gall|]. destruct (size_exists ex_expr) as [b Hb]; [solve_gall|].
    exists (a + b). split; [eapply size_mono; [|exact Ha]; lia|]. intros d. eapply size_mono; [|exact Hb]. lia.
  - exists 1. assert (L : forall d, left_depth ex_E 0 (ex_E d)) by (intros d d' H; exact (ex_left d' H)).
    split; [intros d _; apply L|]. intros d. apply left_mono, L.
Qed.

(** with [attempt]: e = attempt('(' e ')') | '(' e ']' takes more than 2^n steps on n
    opening parentheses *)
Definition exp_e : ex_gram Z :=
  GAlt (GAttempt (seqr (ex_sym "(") (seql (GDelay 0) (ex_sym ")")))) (seqr (ex_sym "(") (seql (GDelay 0) (ex_sym "]"))).
Definition exp_E : env char ex_V := fun _ => exp_e.
Lemma exp_cost N k : forall n pos c, 5 * (k + 1) < n -> pos + k = N ->
  exists e, snd (cfast exp_E n (GDelay 0 : ex_gram Z) (repeat (ex_ch "(") N) pos c) = Ret (SErr e) /\
    2 ^ k <= fst (cfast exp_E n (GDelay 0 : ex_gram Z) (repeat (ex_ch "(") N) pos c).
Proof.
  induction k as [|k IH]; intros n pos c Hn Hp.
  - destruct n as [|[|[|[|[|n]]]]]; try lia.
    set (s := repeat (ex_ch "(") N) in *.
    assert (Hs : @sym_fast char N.eqb (ex_ch "(") "'('" s pos c = Ret (SErr (Err (get_loc c s pos) ["'('"%string] false))).
    { unfold sym_fast, probe_sym. replace (nth_error s pos) with (@None char); [reflexivity|].
      symmetry. apply nth_error_None. unfold s. rewrite repeat_length. lia. }
    change (cfast exp_E (S (S (S (S (S n))))) (GDelay 0 : ex_gram Z)) with
      (fun s pos c => tick (tick (alt_cost (fun s pos c => tick (attempt_cost (fun s pos c => tick (seq_cost
         (fun s pos c => tick (cret (@sym_fast char N.eqb (ex_ch "(") "'('" s pos c)))
         (fun s pos c => tick (seq_cost (cfast exp_E n (GDelay 0)) (cfast exp_E n (ex_sym ")")) (fun l _ => l) s pos c)) (fun _ r => r) s pos c)) s pos c))
         (fun s pos c => tick (seq_cost
         (fun s pos c => tick (cret (@sym_fast char N.eqb (ex_ch "(") "'('" s pos c)))
         (fun s pos c => tick (seq_cost (cfast exp_E (S n) (GDelay 0)) (cfast exp_E (S n) (ex_sym "]")) (fun l _ => l) s pos c)) (fun _ r => r) s pos c)) s pos c))).
    cbv beta. unfold alt_cost, attempt_cost, seq_cost, tick, cret, cbind. rewrite Hs.
    cbn [fst snd er_con]. cbn. eexists. split; [reflexivity|]. lia.
  - destruct n as [|[|[|[|[|n]]]]]; try lia.
    destruct (IH n (pos + 1) c ltac:(lia) ltac:(lia)) as (e1 & H1 & C1).
    destruct (IH (S n) (pos + 1) c ltac:(lia) ltac:(lia)) as (e2 & H2 & C2).
    set (s := repeat (ex_ch "(") N) in *.
    assert (Hs : @sym_fast char N.eqb (ex_ch "(") "'('" s pos c = Ret (SOk (Ok (ex_ch "(") (pos + 1) c [] true))).
    { unfold sym_fast, probe_sym, s. rewrite (nth_error_repeat (ex_ch "(")) by lia. reflexivity. }
    change (cfast exp_E (S (S (S (S (S n))))) (GDelay 0 : ex_gram Z)) with
      (fun s pos c => tick (tick (alt_cost (fun s pos c => tick (attempt_cost (fun s pos c => tick (seq_cost
         (fun s pos c => tick (cret (@sym_fast char N.eqb (ex_ch "(") "'('" s pos c)))
         (fun s pos c => tick (seq_cost (cfast exp_E n (GDelay 0)) (cfast exp_E n (ex_sym ")")) (fun l _ => l) s pos c)) (fun _ r => r) s pos c)) s pos c))
         (fun s pos c => tick (seq_cost
         (fun s pos c => tick (cret (@sym_fast char N.eqb (ex_ch "(") "'('" s pos c)))
         (fun s pos c => tick (seq_cost (cfast exp_E (S n) (GDelay 0)) (cfast exp_E (S n) (ex_sym "]")) (fun l _ => l) s pos c)) (fun _ r => r) s pos c)) s pos c))).
    cbv beta. unfold alt_cost, attempt_cost, seq_cost, tick, cret, cbind. rewrite Hs.
    cbn [fst snd ok_pos ok_ctx ok_val ok_exp ok_con]. change (ex_V 0) with Z. rewrite H1. cbn [fst snd sres_fmap obind sres_prepend er_prepend er_con].
    rewrite H2. cbn [fst snd sres_fmap obind sres_prepend sres_con].
    destruct (er_con (er_prepend [] true e2)) eqn:Ee; cbn [fst snd]; (eexists; split; [reflexivity|]);
      simpl Nat.pow; lia.
Qed.
(** n opening parentheses cost 2^n calls: no constant factor is enough *)
Theorem C57_attempt_exponential : forall n, exists m,
  2 ^ n <= fst (parse_counted exp_E m (GDelay 0 : ex_gram Z) (repeat (ex_ch "(") n) scannerless_get_loc linecol_fmt) /\
  exists r, snd (parse_counted exp_E m (GDelay 0 : ex_gram Z) (repeat (ex_ch "(") n) scannerless_get_loc linecol_fmt) = Ret r.
Proof.
  intros n. exists (5 * (n + 1) + 1).
  destruct (exp_cost n n (5 * (n + 1) + 1) 0 (init_ctx scannerless_get_loc) ltac:(lia) ltac:(lia)) as (e & H1 & H2).
  unfold parse_counted. cbn [fst snd]. split; [exact H2|]. rewrite H1. eexists. reflexivity.
Qed.
Print Assumptions C57_attempt_exponential.
Theorem C57_attempt_not_linear : wf_env exp_E /\ bounded_size exp_E (GDelay 0 : ex_gram Z) /\ bounded_depth exp_E (GDelay 0 : ex_gram Z) /\
  forall k, ~ forall s get fmt n, fst (parse_counted exp_E n (GDelay 0 : ex_gram Z) s get fmt) <= k * (List.length s + 1).
Proof.
  split; [intros d; solve_gall|]. split; [|split].
  - destruct (size_exists exp_e) as [a Ha]; [solve_gall|]. exists (a + 1). split; [simpl; lia|].
    intros d. eapply size_mono; [|exact Ha]. lia.
  - assert (L : forall d, left_depth exp_E 0 (exp_E d)).
    { intros d d' H. apply lcall_inv in H as [H|H].
      - apply lcall_inv in H. apply lcall_inv in H as [H|[[v H] _]]; [apply lcall_inv in H; exact H|eapply ex_sym_not_empty; eauto].
      - apply lcall_inv in H as [H|[[v H] _]]; [apply lcall_inv in H; exact H|eapply ex_sym_not_empty; eauto]. }
    exists 1. split; [intros d _; apply L|]. intros d. apply left_mono, L.
  - intros k H. set (n := 2 * k + 4).
    destruct (C57_attempt_exponential n) as (m & Hm & _).
    specialize (H (repeat (ex_ch "(") n) scannerless_get_loc linecol_fmt m).
    assert (HL : List.length (repeat (ex_ch "(") n) = n) by apply repeat_length. rewrite HL in H.
    assert (G : forall k, k * (2 * k + 4 + 1) + 4 <= 2 ^ (2 * k + 4)).
    { clear. induction k as [|k IH]; [simpl; lia|]. replace (2 * S k + 4) with (S (S (2 * k + 4))) by lia.
      cbn [Nat.pow]. nia. }
    pose proof (Nat.le_trans _ _ _ (G k) (Nat.le_trans _ _ _ Hm H)) as F. unfold n in F. clear - F. lia.
Qed.
Print Assumptions C57_attempt_not_linear.
(** the counts for one expression *)
Theorem C57_case_count : fst (parse_counted ex_E 150 ex_top (ex_str "1+(2+3)") scannerless_get_loc linecol_fmt) = 44 /\
  fst (parse_counted exp_E 150 (GDelay 0 : ex_gram Z) (ex_str "((((((((") scannerless_get_loc linecol_fmt) = 4087.
Proof. split; vm_compute; reflexivity. Qed.
