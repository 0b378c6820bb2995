(** Property C58: on valid input recovery costs nothing; after errors it can cost
    exponentially much. *)
From Verif Require Import CostFullProofs PropsCost Examples PropsTotal.

(** ** The language of a traced parser *)
Section TracedLang.
Context {T : Type} {V : nat -> Type}.
Notation gram := (gram T V).
Fixpoint langn (E : env T V) (n : nat) {A} (g : gram A) (w : list (T + string)) (v : A) {struct n} : Prop :=
  match n with
  | O => False
  | S n =>
      match g in Grammar.gram _ _ A return A -> Prop with
      | GPure x => fun v => w = [] /\ v = x
      | GPureFn f => fun v => w = [] /\ f tt = Ret v
      | GUnexpected _ => fun _ => False
      | GEof => fun v => w = []
      | GSatisfy test => fun v => w = [inl v] /\ test v = Ret true
      | GSym teq x l => fun v => w = [inl v] /\ teq v x = true
      | GLiteral teq x l => fun v => exists u, w = map inl u /\ v = x /\ Forall2 (fun a b => teq a b = true) u x
      | GRegexp re => fun v => exists s i e, w = map inl (firstn (e - i) (skipn i s)) /\ re s i = Some (e, Some v)
      | GFmap p f => fun v => exists a, langn E n p w a /\ f a = Ret v
      | GAlt p q => fun v => langn E n p w v \/ langn E n q w v
      | GBind p f => fun v => exists w1 w2 a, w = w1 ++ w2 /\ langn E n p w1 a /\ langn E n (f a) w2 v
      | GSeq p q merge => fun v => exists w1 w2 a b, w = w1 ++ w2 /\ v = merge a b /\ langn E n p w1 a /\ langn E n q w2 b
      | GMaybe p => fun v => (w = [] /\ v = None) \/ exists a, v = Some a /\ langn E n p w a
      | GMany p => fun v => (w = [] /\ v = []) \/
          exists w1 w2 a l, w = w1 ++ w2 /\ v = a :: l /\ langn E n p w1 a /\ langn E n (GMany p) w2 l
      | GAttempt p => fun v => langn E n p w v
      | GLabel p _ => fun v => langn E n p w v
      | GRecover p => fun v => langn E n p w v
      | GRecoverWith p x l => fun v => langn E n p w v \/ (w = [inr l] /\ v = x)
      | GRecoverWithFn p fn lab => fun v => langn E n p w v \/ exists s i, fn s i = Ret v /\ w = [inr (lab v)]
      | GBlock p => fun v => langn E n p w v
      | GAligned p => fun v => langn E n p w v
      | GIndented _ p => fun v => langn E n p w v
      | GDelay d => fun v => langn E n (E d) w v
      | GUndef => fun _ => False
      end v
  end.
Lemma langn_lang E n : forall A (g : gram A) w v, langn E n g w v -> lang E A g w v.
Proof.
  induction n as [|n IH]; intros A g w v H; [destruct H|].
  destruct g as [A x|A f|A l| |test|teq x l|teq x l|A m|A B p f|A p q|A B p f|A B C p q merge|A p|A p|A p|A p x|A p|A p x l|A p fn lab|A p|A p|A delta p|d|A];
    cbn [langn] in H.
  - destruct H as [-> ->]. constructor.
  - destruct H as [-> H]. constructor. auto.
  - destruct H.
  - subst. destruct v. constructor.
  - destruct H as [-> H]. constructor. auto.
  - destruct H as [-> H]. constructor. auto.
  - destruct H as (u & -> & -> & H). constructor. auto.
  - destruct H as (s & i & e & -> & H). econstructor. eauto.
  - destruct H as (a & H & Hf). econstructor; eauto.
  - destruct H as [H|H]; [apply la_alt_l|apply la_alt_r]; auto.
  - destruct H as (w1 & w2 & a & -> & H1 & H2). econstructor; eauto.
  - destruct H as (w1 & w2 & a & b & -> & -> & H1 & H2). econstructor; eauto.
  - destruct H as [[-> ->]|(a & -> & H)]; constructor; auto.
  - destruct H as [[-> ->]|(w1 & w2 & a & b & -> & -> & H1 & H2)]; constructor; auto.
  - constructor; auto.
  - constructor; auto.
  - constructor; auto.
  - destruct H as [H|[-> ->]]; [apply la_with; auto|apply la_with_ins].
  - destruct H as [H|(s & i & H & ->)]; [apply la_withfn; auto|eapply la_withfn_ins; eauto].
  - constructor; auto.
  - constructor; auto.
  - constructor; auto.
  - constructor; auto.
  - destruct H.
Qed.
Lemma langn_mono E n : forall m A (g : gram A) w v, n <= m -> langn E n g w v -> langn E m g w v.
Proof.
  induction n as [|n IH]; intros m A g w v Hm H; [destruct H|]. destruct m as [|m]; [lia|].
  assert (IH' : forall A (g : gram A) w v, langn E n g w v -> langn E m g w v) by (intros; apply IH; auto; lia).
  destruct g as [A x|A f|A l| |test|teq x l|teq x l|A re|A B p f|A p q|A B p f|A B C p q merge|A p|A p|A p|A p x|A p|A p x l|A p fn lab|A p|A p|A delta p|d|A];
    cbn [langn] in H |- *; auto.
  - destruct H as (a & H & Hf). eauto.
  - destruct H; auto.
  - destruct H as (w1 & w2 & a & -> & H1 & H2). exists w1, w2, a. auto.
  - destruct H as (w1 & w2 & a & b & -> & -> & H1 & H2). exists w1, w2, a, b. auto 6.
  - destruct H as [H|(a & -> & H)]; eauto.
  - destruct H as [H|(w1 & w2 & a & b & -> & -> & H1 & H2)]; auto. right. exists w1, w2, a, b. auto 6.
  - destruct H; auto.
  - destruct H; auto.
Qed.
Lemma lang_langn E A (g : gram A) w v : lang E A g w v -> exists n, langn E n g w v.
Proof.
  induction 1; try (exists 1; cbn [langn]; eauto; fail);
  try (destruct IHlang as [n IH]; exists (S n); cbn [langn]; eauto; fail).
  - destruct IHlang1 as [n1 I1], IHlang2 as [n2 I2]. exists (S (max n1 n2)). cbn [langn].
    exists w1, w2, v. split; auto. split; (eapply langn_mono; [|eassumption]); lia.
  - destruct IHlang1 as [n1 I1], IHlang2 as [n2 I2]. exists (S (max n1 n2)). cbn [langn].
    exists w1, w2, v, v'. split; auto. split; auto. split; (eapply langn_mono; [|eassumption]); lia.
  - destruct IHlang1 as [n1 I1], IHlang2 as [n2 I2]. exists (S (max n1 n2)). cbn [langn]. right.
    exists w1, w2, v, l. split; auto. split; auto. split; (eapply langn_mono; [|eassumption]); lia.
Qed.
Lemma traced_langn E n : forall A (g : gram A) w v, langn (tracedE E) n (traced g) w v -> langn E n g w v.
Proof.
  induction n as [|n IH]; intros A g w v H; [destruct H|].
  destruct g as [A x|A f|A l| |test|teq x l|teq x l|A re|A B p f|A p q|A B p f|A B C p q merge|A p|A p|A p|A p x|A p|A p x l|A p fn lab|A p|A p|A delta p|d|A];
    cbn [langn traced] in H |- *; auto.
  - destruct H as (a & H & Hf). eauto.
  - destruct H; auto.
  - destruct H as (w1 & w2 & a & -> & H1 & H2). exists w1, w2, a. auto.
  - destruct H as (w1 & w2 & a & b & -> & -> & H1 & H2). exists w1, w2, a, b. auto 6.
  - destruct H as [H|(a & -> & H)]; eauto.
  - destruct H as [H|(w1 & w2 & a & b & -> & -> & H1 & H2)]; auto. right. exists w1, w2, a, b.
    repeat split; auto.
  - destruct H as (a & H & [= ->]). auto.
  - destruct H as (a & H & [= ->]). auto.
  - destruct H as (a & H & [= ->]). auto.
Qed.
Lemma traced_lang E A (g : gram A) w v : lang (tracedE E) A (traced g) w v -> lang E A g w v.
Proof. intros H. apply lang_langn in H as [n H]. eapply langn_lang, traced_langn, H. Qed.
Lemma traced_lcall E A (g : gram A) d : lcall (tracedE E) A (traced g) d -> lcall E A g d.
Proof.
  induction g; cbn [traced]; intros Hc; apply lcall_inv in Hc; cbn in Hc; try contradiction;
  try (constructor; auto; fail).
  - destruct Hc; [apply hd_alt_l|apply hd_alt_r]; auto.
  - destruct Hc as [Hc|(v & Hl & Hc)]; [apply hd_bind_l; auto|]. eapply hd_bind_r; [eapply traced_lang; eauto|]. auto.
  - destruct Hc as [Hc|[[v Hl] Hc]]; [apply hd_seq_l; auto|]. eapply hd_seq_r; [eapply traced_lang; eauto|]. auto.
  - subst. constructor.
Qed.
Lemma traced_size A (g : gram A) : forall n, size_le g n -> size_le (traced g) n.
Proof.
  induction g; cbn; intros n Hn; auto;
  try (destruct Hn as (a & Ha & Hn); exists a; split; auto; fail);
  (destruct Hn as (a & b & Ha & Hb & Hn); exists a, b; auto).
Qed.
Lemma traced_left E r : forall A (g : gram A), left_depth E r g -> left_depth (tracedE E) r (traced g).
Proof.
  induction r as [|r IH]; intros A g H d Hc; apply traced_lcall in Hc; specialize (H d Hc); auto.
  apply IH. exact H.
Qed.
Lemma traced_wf A (g : gram A) : wf g -> wf (traced g).
Proof.
  unfold wf. induction g; cbn; intros Hg; intuition.
Qed.
Lemma traced_no_attempt A (g : gram A) : no_attempt g -> no_attempt (traced g).
Proof.
  unfold no_attempt. induction g; cbn; intros Hg; intuition.
Qed.
End TracedLang.

(** ** C58 *)
(** The counted run is the run. *)
Theorem C58_counted :
  forall T V (E : env T V) A n (g : gram T V A) s mi get fmt,
  snd (parse_counted_rec E n g s mi get fmt) = parse E n g s true mi get fmt.
Proof. intros. unfold parse_counted_rec, parse. simpl. rewrite cfull_full. reflexivity. Qed.
Print Assumptions C58_counted.

(** Valid input: the same number of calls with and without recovery. *)
Theorem C58_valid_same_calls :
  forall T V (E : env T V) A (g : gram T V A) s mi get fmt n o,
  no_recover g -> (forall d, no_recover (E d)) ->
  parse E n g s false mi get fmt = Ret (ResultWrapper (ROk o) fmt) ->
  fst (parse_counted_rec E n g s mi get fmt) = fst (parse_counted E n g s get fmt).
Proof.
  intros T V E A g s mi get fmt n o Hg HE H. unfold parse in H.
  pose proof (cost_sim E n A g s 0 (init_ctx get) mi (Some mi)) as C.
  destruct (traced_near E n A g s 0 (init_ctx get)) as (_ & _ & X).
  unfold parse_counted_rec, parse_counted. cbn [fst]. unfold cheap in C. rewrite cfast_fast in C.
  rewrite <- (X (conj Hg HE)) in C.
  destruct (fast E n g s 0 (init_ctx get)) as [[o'|e]| |]; try discriminate. cbn in *. lia.
Qed.
Print Assumptions C58_valid_same_calls.

(** ... for any parser, at least as many *)
Theorem C58_valid_at_least :
  forall T V (E : env T V) A (g : gram T V A) s mi get fmt n o,
  parse E n g s false mi get fmt = Ret (ResultWrapper (ROk o) fmt) ->
  fst (parse_counted E n g s get fmt) <= fst (parse_counted_rec E n g s mi get fmt).
Proof.
  intros T V E A g s mi get fmt n o H. unfold parse in H.
  pose proof (cost_sim E n A g s 0 (init_ctx get) mi (Some mi)) as C.
  unfold parse_counted_rec, parse_counted. cbn [fst]. unfold cheap in C. rewrite cfast_fast in C.
  destruct (fast E n g s 0 (init_ctx get)) as [[o'|e]| |]; try discriminate. cbn in *. lia.
Qed.
Print Assumptions C58_valid_at_least.

(** Valid input is parsed in linear time with recovery on, as in C57. *)
Theorem C58_valid_linear :
  forall T V (E : env T V) A (g : gram T V A),
  wf_env E -> wf g -> no_attempt g -> (forall d, no_attempt (E d)) ->
  bounded_size E g -> bounded_depth E g ->
  exists k, forall s mi get fmt n o,
    parse E n g s false mi get fmt = Ret (ResultWrapper (ROk o) fmt) ->
    fst (parse_counted_rec E n g s mi get fmt) <= k * (List.length s + 1).
Proof.
  intros T V E A g HE Hg Ha HA (m & Hm & HM) (r & Hr & HR).
  destruct (C57_linear T V (tracedE E) A (traced g)) as [k Hk].
  - intros d. apply traced_wf, HE.
  - apply traced_wf, Hg.
  - apply traced_no_attempt, Ha.
  - intros d. apply traced_no_attempt, HA.
  - exists m. split; [apply traced_size, Hm|]. intros d. apply traced_size, HM.
  - exists r. split; [apply traced_left, Hr|]. intros d. apply traced_left, HR.
  - exists k. intros s mi get fmt n o H. specialize (Hk s get fmt n).
    pose proof (cost_sim E n A g s 0 (init_ctx get) mi (Some mi)) as C.
    unfold parse_counted_rec, parse_counted, parse in *. cbn [fst] in *. unfold cheap in C. rewrite cfast_fast in C.
    destruct (fast E n g s 0 (init_ctx get)) as [[o'|e]| |]; try discriminate. lia.
Qed.
Print Assumptions C58_valid_linear.

(** ** Concrete cases *)
Theorem C58_case : exists o,
  parse ex_E 150 ex_top (ex_str "1+(2+3)") false 5 scannerless_get_loc linecol_fmt = Ret (ResultWrapper (ROk o) linecol_fmt) /\
  fst (parse_counted_rec ex_E 150 ex_top (ex_str "1+(2+3)") 5 scannerless_get_loc linecol_fmt) = 48 /\
  fst (parse_counted ex_E 150 ex_top (ex_str "1+(2+3)") scannerless_get_loc linecol_fmt) = 44.
Proof. eexists. repeat (split; [vm_compute; reflexivity|]). vm_compute. reflexivity. Qed.

(** *** (a b)* on (aab)^k: every block has one error, and recovery tries both repairs of
    each (insert 'b', skip 'a') with both repairs of all the later ones *)
Definition ab_p : ex_gram char := seql (ex_sym "a") (ex_sym "b").
Definition ab : ex_gram (list char) := GMany ab_p.
Fixpoint aab (k : nat) : list char := match k with O => [] | S k => ex_str "aab" ++ aab k end.
Lemma aab_len k : List.length (aab k) = 3 * k.
Proof. induction k; [reflexivity|]. cbn [aab]. rewrite app_length, IHk. cbn. lia. Qed.
Lemma aab_nth k : forall j, j < k -> nth_error (aab k) (3 * j) = Some (ex_ch "a") /\
  nth_error (aab k) (3 * j + 1) = Some (ex_ch "a") /\ nth_error (aab k) (3 * j + 2) = Some (ex_ch "b").
Proof.
  induction k as [|k IH]; intros j Hj; [lia|]. destruct j as [|j]; [repeat split; reflexivity|].
  destruct (IH j ltac:(lia)) as (H1 & H2 & H3). cbn [aab].
  replace (3 * S j) with (3 + 3 * j) by lia. repeat split; cbn [ex_str app]; auto.
Qed.

Lemma ab_ok m (s : list char) i c ins : nth_error s i = Some (ex_ch "a") -> nth_error s (i + 1) = Some (ex_ch "b") ->
  exists k o, cfull ex_E (S (S m)) ab_p s i c ins None = (k, Ret (ROk o)) /\ ok_pos o = i + 1 + 1 /\ ok_con o = true.
Proof.
  intros H1 H2. unfold ab_p, seql. 
  change (cfull ex_E (S (S m)) (GSeq (ex_sym "a") (ex_sym "b") (fun l _ => l)) s i c ins None) with
    (tick (seq_costr (fun s pos c ins rem => tick (cret (@sym_full char N.eqb (ex_ch "a") "'a'" s pos c ins rem)))
       (fun s pos c ins rem => tick (cret (@sym_full char N.eqb (ex_ch "b") "'b'" s pos c ins rem))) (fun l _ => l) s i c ins None)).
  unfold seq_costr, sym_full, probe_sym. rewrite H1. cbn -[nth_error Nat.add]. rewrite H2. cbn -[nth_error Nat.add].
  do 2 eexists. split; [reflexivity|]. split; reflexivity.
Qed.
Lemma ab_end m (s : list char) i c ins : nth_error s i = None ->
  exists k e, cfull ex_E (S (S m)) ab_p s i c ins None = (k, Ret (RErr e)) /\ er_con e = false /\ 1 <= k.
Proof.
  intros H1. unfold ab_p, seql.
  change (cfull ex_E (S (S m)) (GSeq (ex_sym "a") (ex_sym "b") (fun l _ => l)) s i c ins None) with
    (tick (seq_costr (fun s pos c ins rem => tick (cret (@sym_full char N.eqb (ex_ch "a") "'a'" s pos c ins rem)))
       (fun s pos c ins rem => tick (cret (@sym_full char N.eqb (ex_ch "b") "'b'" s pos c ins rem))) (fun l _ => l) s i c ins None)).
  unfold seq_costr, sym_full, probe_sym. rewrite H1. cbn -[nth_error Nat.add].
  do 2 eexists. split; [reflexivity|]. split; [reflexivity|lia].
Qed.
Lemma ab_rec m (s : list char) i c ins : ins <> 0%Z -> nth_error s i = Some (ex_ch "a") -> nth_error s (i + 1) = Some (ex_ch "a") ->
  nth_error s (i + 2) = Some (ex_ch "b") ->
  exists k r1 r2 mn l x cn, cfull ex_E (S (S m)) ab_p s i c ins None = (k, Ret (RRec (Recd [r1; r2] mn l x cn))) /\
    r_pos r1 = i + 1 /\ r_pos r2 = i + 3.
Proof.
  intros Hz H1 H2 H3. unfold ab_p, seql.
  change (cfull ex_E (S (S m)) (GSeq (ex_sym "a") (ex_sym "b") (fun l _ => l)) s i c ins None) with
    (tick (seq_costr (fun s pos c ins rem => tick (cret (@sym_full char N.eqb (ex_ch "a") "'a'" s pos c ins rem)))
       (fun s pos c ins rem => tick (cret (@sym_full char N.eqb (ex_ch "b") "'b'" s pos c ins rem))) (fun l _ => l) s i c ins None)).
  assert (Hb : exists (r1 r2 : repair char char) l, @sym_full char N.eqb (ex_ch "b") "'b'" s (i + 1) c ins (Some ins) =
    Ret (RRec (Recd [r1; r2] (Some 1) l ["'b'"%string] false)) /\ r_pos r1 = i + 1 /\ r_pos r2 = i + 3).
  { unfold sym_full, probe_sym, skip_search. rewrite H2. cbn -[nth_error Nat.add skip_loop Nat.sub Z.eqb].
    apply Z.eqb_neq in Hz. rewrite Hz. replace (S (i + 1)) with (i + 2) by lia.
    assert (Hl : i + 2 < List.length s) by (apply nth_error_Some; congruence).
    replace (List.length s - (i + 2)) with (S (List.length s - (i + 3))) by lia. cbn [skip_loop]. rewrite H3.
    cbn -[nth_error Nat.add Nat.sub]. replace (i + 2 - (i + 1)) with 1 by lia.
    do 3 eexists. split; [reflexivity|]. split; [reflexivity|]. cbn. lia. }
  destruct Hb as (r1 & r2 & l & Hb & P1 & P2).
  unfold seq_costr. unfold sym_full at 1, probe_sym. rewrite H1. cbn -[nth_error Nat.add sym_full].
  cbn -[nth_error Nat.add sym_full] in Hb. rewrite Hb. cbn -[nth_error Nat.add]. do 7 eexists. split; [reflexivity|]. split; assumption.
Qed.

(** the results a caller can still get *)
Definition choices {T A} (r : res T A) : nat :=
  match r with ROk _ => 1 | RErr _ => 0 | RRec rc => List.length (rc_reps rc) end.
Lemma ab_many k m ins : ins <> 0%Z -> forall r n b vs i c, i + 3 * r = 3 * k -> 2 * r < n ->
  exists cnt R, many_costr (cfull ex_E (S (S m)) ab_p) n b vs (aab k) i c ins = (cnt, Ret R) /\
    2 ^ r <= cnt /\ choices R = 2 ^ r /\ (r = 0 -> exists o, R = ROk o) /\ (r <> 0 -> exists rc, R = RRec rc).
Proof.
  intros Hz. induction r as [|r IH]; intros n b vs i c Hi Hn.
  - destruct n as [|n]; [lia|]. cbn [many_costr].
    destruct (ab_end m (aab k) i c ins) as (q & e & Hq & He & H1); [apply nth_error_None; rewrite aab_len; lia|].
    rewrite Hq. unfold cbind. cbn [fst snd]. rewrite He. cbn [cret fst snd]. do 2 eexists. split; [reflexivity|].
    split; [cbn; lia|]. split; [reflexivity|]. split; [intros _; eexists; reflexivity|lia].
  - destruct n as [|[|n]]; [lia|lia|].
    destruct (aab_nth k (k - S r) ltac:(lia)) as (A1 & A2 & A3). replace (3 * (k - S r)) with i in * by lia.
    remember (S n) as n1 eqn:En. cbn [many_costr].
    destruct (ab_rec m (aab k) i c ins Hz A1 A2 A3) as (q & r1 & r2 & mn & l & x & cn & Hq & P1 & P2).
    rewrite Hq. unfold cbind at 1. cbn [fst snd]. unfold continue_cost. cbn [rc_reps cflat_map].
    assert (J1 : exists cnt R, tick (many_costr (cfull ex_E (S (S m)) ab_p) n1 false [] (aab k) (r_pos r1) (r_ctx r1) ins) = (cnt, Ret R) /\
      2 ^ r <= cnt /\ choices R = 2 ^ r /\ (r = 0 -> exists o, R = ROk o) /\ (r <> 0 -> exists rc, R = RRec rc)).
    { subst n1. cbn [many_costr]. rewrite P1.
      destruct (ab_ok m (aab k) (i + 1) (r_ctx r1) ins) as (q' & o & Hq' & Ho & Hc); [auto|replace (i + 1 + 1) with (i + 2) by lia; auto|].
      rewrite Hq'. unfold cbind at 1. cbn [fst snd]. rewrite Hc.
      destruct (IH n true ([] ++ [ok_val o]) (ok_pos o) (ok_ctx o) ltac:(lia) ltac:(lia)) as (cnt & R & HR & J).
      rewrite HR. cbn [fst snd tick]. do 2 eexists. split; [reflexivity|]. destruct J as (J1 & J2). split; [cbn; lia|auto]. }
    destruct (IH n1 false [] (r_pos r2) (r_ctx r2) ltac:(lia) ltac:(lia)) as (cnt2 & R2 & HR2 & J2 & J3 & J4 & J5).
    destruct J1 as (cnt1 & R1 & HR1 & I2 & I3 & I4 & I5).
    unfold cont_one_cost. rewrite HR1, HR2. cbn [tick fst snd].
    destruct (Nat.eq_dec r 0) as [Hr|Hr].
    + destruct (I4 Hr) as [o1 ->], (J4 Hr) as [o2 ->]. subst r. cbn. do 2 eexists. split; [reflexivity|].
      cbn in I2, J2. split; [cbn; lia|]. split; [reflexivity|]. split; [lia|]. intros _. eexists. reflexivity.
    + destruct (I5 Hr) as [o1 ->], (J5 Hr) as [o2 ->]. cbn -[Nat.pow]. do 2 eexists. split; [reflexivity|].
      split; [cbn; lia|]. split; [|split; [lia|intros _; eexists; reflexivity]].
      cbn [choices rc_reps] in I3, J3 |- *. rewrite !app_length, !map_length. cbn [List.length]. rewrite I3, J3. cbn. lia.
Qed.
Theorem C58_recovery_exponential : forall k mi get fmt, mi <> 0%Z -> exists n R,
  snd (parse_counted_rec ex_E n ab (aab k) mi get fmt) = Ret (ResultWrapper R fmt) /\
  List.length (aab k) = 3 * k /\
  2 ^ k <= fst (parse_counted_rec ex_E n ab (aab k) mi get fmt) /\
  (k <> 0 -> exists rc, R = RRec rc /\ List.length (rc_reps rc) = 2 ^ k).
Proof.
  intros k mi get fmt Hm. exists (2 * k + 3).
  destruct (ab_many k (2 * k) mi Hm k (2 * k + 2) false [] 0 (init_ctx get) ltac:(lia) ltac:(lia)) as (cnt & R & HR & J1 & J2 & _ & J3).
  assert (Hf : cfull ex_E (2 * k + 3) ab (aab k) 0 (init_ctx get) mi (Some mi) = (S cnt, Ret R)).
  { replace (2 * k + 3) with (S (S (S (2 * k)))) by lia. unfold ab. cbn [cfull].
    replace (2 * k + 2) with (S (S (2 * k))) in HR by lia.
    change (cfull ex_E (S (S (2 * k))) ab_p) with (cfull ex_E (S (S (2 * k))) ab_p) in HR.
    unfold tick at 1. cbn [cfull] in HR. rewrite HR. reflexivity. }
  exists R. unfold parse_counted_rec. rewrite Hf. cbn [fst snd obind]. split; [reflexivity|]. split; [apply aab_len|]. split; [lia|].
  intros Hk. destruct (J3 Hk) as [rc ->]. exists rc. split; [reflexivity|]. exact J2.
Qed.
Print Assumptions C58_recovery_exponential.
(** without recovery the same parser takes linear time (it has no Delay, no attempt) *)
Theorem C58_recovery_exponential_fast : exists k, forall s get fmt n,
  fst (parse_counted (T := char) (fun _ : nat => GUndef : ex_gram Z) n (ab : ex_gram (list char)) s get fmt) <= k * (List.length s + 1).
Proof.
  apply (C57_finite char ex_V (fun _ => GUndef) _ ab 0 (fun _ => 0)).
  - intros d. solve_gall.
  - solve_gall.
  - solve_gall.
  - intros d. solve_gall.
  - solve_gall.
  - intros d. solve_gall.
  - reflexivity.
  - intros d d' H. destruct (undef_calls _ _ _ _ H).
Qed.
(** 5 insertions (the default), 6 blocks: 18 characters, 64 repairs, 633 calls *)
Theorem C58_recovery_count : fst (parse_counted_rec ex_E 150 ab (aab 6) 5 scannerless_get_loc linecol_fmt) = 633.
Proof. vm_compute. reflexivity. Qed.
