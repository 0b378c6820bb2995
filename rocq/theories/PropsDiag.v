(** Property C43: the error of a failed parse without recovery, its location
    and its list of expected values, is the one of the declarative semantics
    [diag] (DiagSpec.v). *)
From Verif Require Import DiagProofs PropsPeg Examples.

Lemma parse_plain_dabs {T V} (E : env T V) n A (g : gram T V A) s mi get fmt :
  match dabs (fast E n g s 0 (init_ctx get)) with
  | Some (DSucc v _ _) => exists r, parse E n g s false mi get fmt = Ret r /\
      forall b, unwrap r b = Returns v
  | Some (DFail _ l X) => exists r, parse E n g s false mi get fmt = Ret r /\
      forall b, unwrap r b = Raises [ErrorItem l (fmt l) X None]
  | Some (DExn e) => parse E n g s false mi get fmt = Raise e
  | None => parse E n g s false mi get fmt = NoFuel
  end.
Proof.
  unfold parse. destruct (fast E n g s 0 (init_ctx get)) as [[o|e]|e|]; simpl;
    try reflexivity; eexists; split; reflexivity.
Qed.

(** [parse(s)] returns [v], reports exactly the one error given by the
    semantics at the start of the input, or raises, whether or not the result
    is unwrapped with recover=True. *)
Theorem C43_plain_diagnostics :
  forall T V (E : env T V) A (g : gram T V A) s mi get fmt locof rec,
  wf_env E -> wf g -> cohere get s locof -> lay_ok E g s locof ->
  let outcome := diag E s locof A g 0 0 in
  (forall v, (exists n r, parse E n g s false mi get fmt = Ret r /\ unwrap r rec = Returns v)
     <-> exists j X, outcome (DSucc v j X)) /\
  (forall errs, (exists n r, parse E n g s false mi get fmt = Ret r /\ unwrap r rec = Raises errs)
     <-> exists b l X, outcome (DFail b l X) /\
           errs = [{| ei_loc := l; ei_loc_str := fmt l; ei_expected := X; ei_op := None |}]) /\
  (forall e, (exists n, parse E n g s false mi get fmt = Raise e) <-> outcome (DExn e)).
Proof.
  intros T V E A g s mi get fmt locof rec HE Hg Hco Hl outcome.
  destruct (lay_gok _ _ _ _ _ HE Hg Hl) as [G1 G2].
  assert (HS : forall n o, dabs (fast E n g s 0 (init_ctx get)) = Some o -> outcome o).
  { intros n o H. eapply (diag_sound E s get locof _ Hco (fun x => x) G2 n A g 0 (init_ctx get));
      eauto; [lia|apply pos_init]. }
  assert (HC : forall o, outcome o -> exists n, dabs (fast E n g s 0 (init_ctx get)) = Some o).
  { intros o H. eapply (diag_complete E s get locof _ Hco (fun x => x) G2); eauto; [lia|apply pos_init]. }
  assert (HP := fun n => parse_plain_dabs E n A g s mi get fmt).
  split; [|split].
  - intros v. split.
    + intros (n & r & H & Hu). specialize (HP n). specialize (HS n).
      destruct (dabs _) as [[w j X|b l X|e]|].
      * destruct HP as (r' & K1 & K2). specialize (K2 rec). assert (v = w) by congruence. subst w. eauto.
      * destruct HP as (r' & K1 & K2). specialize (K2 rec). congruence.
      * congruence.
      * congruence.
    + intros (j & X & H). apply HC in H as [n H]. specialize (HP n). rewrite H in HP.
      destruct HP as (r & K1 & K2). eauto.
  - intros errs. split.
    + intros (n & r & H & Hu). specialize (HP n). specialize (HS n).
      destruct (dabs _) as [[w j X|b l X|e]|]; [| | |]; try congruence;
        destruct HP as (r' & K1 & K2); specialize (K2 rec); [congruence|].
      exists b, l, X. split; [auto|congruence].
    + intros (b & l & X & H & ->). apply HC in H as [n H]. specialize (HP n). rewrite H in HP.
      destruct HP as (r & K1 & K2). eauto.
  - intros e. split.
    + intros (n & H). specialize (HP n). specialize (HS n).
      destruct (dabs _) as [[w j X|b l X|e']|];
        try (destruct HP as (r' & K1 & K2); congruence); [|congruence].
      assert (e' = e) by congruence. subst e'. eauto.
    + intros H. apply HC in H as [n H]. specialize (HP n). rewrite H in HP. eauto.
Qed.
Print Assumptions C43_plain_diagnostics.

(** scannerless.parse reports the true line and column *)
Corollary C43_scannerless :
  forall V (E : env char V) A (g : gram char V A) s errs,
  wf_env E -> wf g ->
  (exists n r, scannerless_parse E n g s false = Ret r /\ unwrap r false = Raises errs) <->
  exists b l X, diag E s (true_loc s) A g 0 0 (DFail b l X) /\
    errs = [{| ei_loc := l; ei_loc_str := linecol_fmt l; ei_expected := X; ei_op := None |}].
Proof.
  intros V E A g s errs HE Hg.
  apply (C43_plain_diagnostics char V E A g s 5 scannerless_get_loc linecol_fmt (true_loc s) false HE Hg
    (scannerless_cohere s) (or_introl (scannerless_exact s))).
Qed.
Print Assumptions C43_scannerless.

(** the diagnosis is unique *)
Theorem C43_deterministic :
  forall T V (E : env T V) A (g : gram T V A) s m i o o',
  wf_env E -> wf g -> i <= List.length s ->
  diag E s default_locof A g m i o -> diag E s default_locof A g m i o' -> o = o'.
Proof.
  intros T V E A g s m i o o' HE Hg Hi H H'.
  assert (Hl : lay_ok E g s (default_locof)) by (left; apply default_exact).
  destruct (lay_gok _ _ _ _ _ HE Hg Hl) as [G1 G2].
  set (c := Ctx (T:=T) m (default_locof i) default_get_loc).
  assert (Hc : pos_Cok (T:=T) default_get_loc default_locof i c) by (split; [reflexivity|right; exists i; auto]).
  pose proof (fun o K => diag_complete E s default_get_loc default_locof _ (default_cohere s) (fun x => x)
    G2 A g m i o K G1 Hi c Hc eq_refl) as HC.
  destruct (HC o H) as [n Hn], (HC o' H') as [n' Hn'].
  assert (K : fast E n g s i c = fast E n' g s i c).
  { apply fast_agree; intros K; rewrite K in *; discriminate. }
  rewrite K in Hn. congruence.
Qed.
Print Assumptions C43_deterministic.

(** The grammar x? (y | z) read at "w": the three labels are reported, in
    order; and after "x" only y and z. *)
Definition c43_g : ex_gram char := seqr (GMaybe (ex_sym "x")) (GAlt (ex_sym "y") (ex_sym "z")).
Definition c43_exp : list string := ["'x'"; "'y'"; "'z'"]%string.
Example C43_case :
  wf c43_g /\ wf_env ex_E /\ lay_ok ex_E c43_g (ex_str "w") default_locof /\
  diag ex_E (ex_str "w") default_locof _ c43_g 0 0 (DFail false (Loc 0 0 0) c43_exp) /\
  (exists n r, parse ex_E n c43_g (ex_str "w") false 5 default_get_loc default_fmt_loc = Ret r /\
    unwrap r false = Raises [ErrorItem (Loc 0 0 0) "0" c43_exp None]) /\
  (exists n r, parse ex_E n c43_g (ex_str "xw") false 5 default_get_loc default_fmt_loc = Ret r /\
    unwrap r false = Raises [ErrorItem (Loc 1 0 0) "1" ["'y'"; "'z'"]%string None]).
Proof.
  split; [unfold wf; solve_gall|]. split; [exact ex_wf_E|]. split; [left; apply default_exact|]. split; [|split].
  - apply (dg_seq ex_E (ex_str "w") default_locof _ _ _ (GMaybe (ex_sym "x"))
      (GAlt (ex_sym "y") (ex_sym "z")) (fun _ r => r) 0 0 None 0 ["'x'"%string]
      (DFail false (Loc 0 0 0) ["'y'"; "'z'"]%string)).
    + apply dg_maybe_none with (l := default_locof 0). apply dg_sym_no.
      intros t H. injection H as <-. reflexivity.
    + apply (dg_alt_r ex_E (ex_str "w") default_locof _ (ex_sym "y") (ex_sym "z") 0 0 (default_locof 0) ["'y'"%string]
        (DFail false (default_locof 0) ["'z'"%string])); apply dg_sym_no;
        intros t H; injection H as <-; reflexivity.
  - exists 9. eexists. split; vm_compute; reflexivity.
  - exists 9. eexists. split; vm_compute; reflexivity.
Qed.
