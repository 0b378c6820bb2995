(** Property C03: parsing without recovery implements the documented
    semantics (the relation [peg] of PegSpec.v), soundly and completely. *)
From Verif Require Import PegProofs Examples.

Section C03.
Context {T : Type} {V : nat -> Type}.

Lemma lay_gok (E : env T V) A (g : gram T V A) s locof :
  wf_env E -> wf g -> lay_ok E g s locof ->
  gok (exactpos s locof) g /\ forall d, gok (exactpos s locof) (E d).
Proof. intros HE Hg [L|[L1 L2]]; split; intros; apply gok_wf; auto. Qed.

Lemma parse_plain_abs E n A (g : gram T V A) s mi get fmt :
  match abs (fast E n g s 0 (init_ctx get)) with
  | Some (PSucc v _) => exists r, parse E n g s false mi get fmt = Ret r /\ unwrap r false = Returns v
  | Some (PFail _) =>
      exists r errs, parse E n g s false mi get fmt = Ret r /\ unwrap r false = Raises errs
  | Some (PExn e) => parse E n g s false mi get fmt = Raise e
  | None => parse E n g s false mi get fmt = NoFuel
  end.
Proof.
  unfold parse. destruct (fast E n g s 0 (init_ctx get)) as [[o|e]|e|]; simpl;
    try reflexivity; do 2 eexists; try split; reflexivity.
Qed.
End C03.

(** The value, failure or exception of [parse(s).unwrap()] is the one given by
    the declarative semantics at the start of the input with mark 0; and it is
    reached (with enough fuel) whenever the semantics has an outcome. *)
Theorem C03_plain_parse_is_peg :
  forall T V (E : env T V) A (g : gram T V A) s mi get fmt locof,
  wf_env E -> wf g -> cohere get s locof -> lay_ok E g s locof ->
  let outcome := peg E s (fun i => loc_col (locof i)) A g 0 0 in
  (forall v, (exists n r, parse E n g s false mi get fmt = Ret r /\ unwrap r false = Returns v)
     <-> exists j, outcome (PSucc v j)) /\
  ((exists n r errs, parse E n g s false mi get fmt = Ret r /\ unwrap r false = Raises errs)
     <-> exists b, outcome (PFail b)) /\
  (forall e, (exists n, parse E n g s false mi get fmt = Raise e) <-> outcome (PExn e)).
Proof.
  intros T V E A g s mi get fmt locof HE Hg Hco Hl outcome.
  destruct (lay_gok _ _ _ _ _ HE Hg Hl) as [G1 G2].
  assert (HS : forall n o, abs (fast E n g s 0 (init_ctx get)) = Some o -> outcome o).
  { intros n o H. eapply (peg_sound E s get locof _ Hco (fun x => x) G2 n A g 0 (init_ctx get));
      eauto; [lia|apply pos_init]. }
  assert (HC : forall o, outcome o -> exists n, abs (fast E n g s 0 (init_ctx get)) = Some o).
  { intros o H. eapply (peg_complete E s get locof _ Hco (fun x => x) G2); eauto; [lia|apply pos_init]. }
  assert (HP := fun n => parse_plain_abs E n A g s mi get fmt).
  split; [|split].
  - intros v. split.
    + intros (n & r & H & Hu). specialize (HP n). specialize (HS n).
      destruct (abs _) as [[w j|b|e]|].
      * destruct HP as (r' & K1 & K2). assert (v = w) by congruence. subst w. eauto.
      * destruct HP as (r' & errs & K1 & K2). congruence.
      * congruence.
      * congruence.
    + intros (j & H). apply HC in H as [n H]. specialize (HP n). rewrite H in HP. eauto.
  - split.
    + intros (n & r & errs & H & Hu). specialize (HP n). specialize (HS n).
      destruct (abs _) as [[w j|b|e]|]; [|eauto| |]; try congruence.
      destruct HP as (r' & K1 & K2). congruence.
    + intros (b & H). apply HC in H as [n H]. specialize (HP n). rewrite H in HP. eauto.
  - intros e. split.
    + intros (n & H). specialize (HP n). specialize (HS n).
      destruct (abs _) as [[w j|b|e']|].
      * destruct HP as (r' & K1 & K2). congruence.
      * destruct HP as (r' & errs & K1 & K2). congruence.
      * assert (e' = e) by congruence. subst e'. eauto.
      * congruence.
    + intros H. apply HC in H as [n H]. specialize (HP n). rewrite H in HP. eauto.
Qed.
Print Assumptions C03_plain_parse_is_peg.

(** for scannerless.parse, with true columns *)
Corollary C03_scannerless :
  forall V (E : env char V) A (g : gram char V A) s,
  wf_env E -> wf g ->
  let outcome := peg E s (fun i => Z.of_nat (true_col s i)) A g 0 0 in
  (forall v, (exists n r, scannerless_parse E n g s false = Ret r /\ unwrap r false = Returns v)
     <-> exists j, outcome (PSucc v j)) /\
  ((exists n r errs, scannerless_parse E n g s false = Ret r /\ unwrap r false = Raises errs)
     <-> exists b, outcome (PFail b)) /\
  (forall e, (exists n, scannerless_parse E n g s false = Raise e) <-> outcome (PExn e)).
Proof.
  intros V E A g s HE Hg.
  apply (C03_plain_parse_is_peg char V E A g s 5 scannerless_get_loc linecol_fmt (true_loc s) HE Hg
    (scannerless_cohere s) (or_introl (scannerless_exact s))).
Qed.
Print Assumptions C03_scannerless.

(** at any position and mark, with the consumed flag of failures *)
Theorem C03_anywhere :
  forall T V (E : env T V) A (g : gram T V A) s get locof m i,
  wf_env E -> wf g -> cohere get s locof -> lay_ok E g s locof -> i <= List.length s ->
  let outcome := peg E s (fun i => loc_col (locof i)) A g m i in
  let c := Ctx m (locof i) get in
  (forall v j, (exists n o, fast E n g s i c = Ret (SOk o) /\ ok_val o = v /\ ok_pos o = j)
     <-> outcome (PSucc v j)) /\
  (forall b, (exists n e, fast E n g s i c = Ret (SErr e) /\ er_con e = b) <-> outcome (PFail b)) /\
  (forall e, (exists n, fast E n g s i c = Raise e) <-> outcome (PExn e)).
Proof.
  intros T V E A g s get locof m i HE Hg Hco Hl Hi outcome c.
  destruct (lay_gok _ _ _ _ _ HE Hg Hl) as [G1 G2].
  assert (Hc : pos_Cok (T:=T) get locof i c) by (split; [reflexivity|right; exists i; auto]).
  assert (HS : forall n o, abs (fast E n g s i c) = Some o -> outcome o).
  { intros n o H. eapply (peg_sound E s get locof _ Hco (fun x => x) G2 n A g i c); eauto. }
  assert (HC : forall o, outcome o -> exists n, abs (fast E n g s i c) = Some o).
  { intros o H. eapply (peg_complete E s get locof _ Hco (fun x => x) G2); eauto. }
  split; [|split].
  - intros v j. split.
    + intros (n & o & H & <- & <-). apply (HS n). rewrite H. reflexivity.
    + intros H. apply HC in H as [n H]. apply abs_succ in H as (o & H). eauto.
  - intros b. split.
    + intros (n & o & H & <-). apply (HS n). rewrite H. reflexivity.
    + intros H. apply HC in H as [n H]. apply abs_fail in H as (o & H). eauto.
  - intros e. split.
    + intros (n & H). apply (HS n). rewrite H. reflexivity.
    + intros H. apply HC in H as [n H]. apply abs_exn in H. eauto.
Qed.
Print Assumptions C03_anywhere.

(** the documented semantics is deterministic *)
Theorem C03_deterministic :
  forall T V (E : env T V) A (g : gram T V A) s m i o o',
  wf_env E -> wf g -> i <= List.length s ->
  peg E s (fun _ => 0%Z) A g m i o -> peg E s (fun _ => 0%Z) A g m i o' -> o = o'.
Proof.
  intros T V E A g s m i o o' HE Hg Hi H H'.
  assert (Hl : lay_ok E g s (default_locof)) by (left; apply default_exact).
  destruct (lay_gok _ _ _ _ _ HE Hg Hl) as [G1 G2].
  set (c := Ctx (T:=T) m (default_locof i) default_get_loc).
  assert (Hc : pos_Cok (T:=T) default_get_loc default_locof i c) by (split; [reflexivity|right; exists i; auto]).
  pose proof (fun o K => peg_complete E s default_get_loc default_locof _ (default_cohere s) (fun x => x)
    G2 A g m i o K G1 Hi c Hc eq_refl) as HC.
  destruct (HC o H) as [n Hn], (HC o' H') as [n' Hn'].
  assert (K : fast E n g s i c = fast E n' g s i c).
  { apply fast_agree; intros K; rewrite K in *; discriminate. }
  rewrite K in Hn. congruence.
Qed.
Print Assumptions C03_deterministic.

(** an aligned block read by scannerless.parse, an input that fails, and one
    that raises *)
Example C03_case :
  wf lay_top /\ wf_env lay_E /\
  match scannerless_parse lay_E 40 lay_top lay_input false,
        ex_parse "1+(2" false 5,
        parse ex_E 9 (GMany (GPure 1%Z)) (ex_str "a") false 5 default_get_loc default_fmt_loc with
  | Ret r, Ret r', Raise e => unwrap r false = Returns [1; 2]%Z /\
      (exists errs, unwrap r' false = Raises errs) /\ e = ManyEmpty
  | _, _, _ => False
  end.
Proof.
  split; [apply lay_wf|]. split; [apply lay_wf|]. vm_compute. split; [|split]; eauto.
Qed.
(** the semantics itself commits: ('a' 'b' | 'a' 'c') rejects "ac", and with
    attempt accepts it *)
Definition c03_ab : ex_gram char := seqr (ex_sym "a") (ex_sym "b").
Definition c03_ac : ex_gram char := seqr (ex_sym "a") (ex_sym "c").
Example C03_commit :
  peg ex_E (ex_str "ac") (fun _ => 0%Z) _ (GAlt c03_ab c03_ac) 0 0 (PFail true) /\
  peg ex_E (ex_str "ac") (fun _ => 0%Z) _ (GAlt (GAttempt c03_ab) c03_ac) 0 0
    (PSucc (ex_ch "c") 2).
Proof.
  assert (H : peg ex_E (ex_str "ac") (fun _ => 0%Z) _ c03_ab 0 0 (PFail true)).
  { apply (pg_seq ex_E _ _ _ _ _ (ex_sym "a") (ex_sym "b") (fun _ r => r) 0 0 (ex_ch "a") 1 (PFail false)).
    - apply (pg_sym ex_E _ _ _ _ _ (ex_ch "a") 0 0); reflexivity.
    - apply pg_sym_no. intros t Ht. injection Ht as <-. reflexivity. }
  split.
  - apply pg_alt_fail. exact H.
  - apply pg_alt_r; [eapply pg_attempt_fail; exact H|].
    apply (pg_seq ex_E _ _ _ _ _ (ex_sym "a") (ex_sym "c") (fun _ r => r) 0 0 (ex_ch "a") 1 (PSucc (ex_ch "c") 2)).
    + apply (pg_sym ex_E _ _ _ _ _ (ex_ch "a") 0 0); reflexivity.
    + apply (pg_sym ex_E _ _ _ _ _ (ex_ch "c") 0 1); reflexivity.
Qed.
