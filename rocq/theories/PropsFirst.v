(** C12: the first error is the same in both modes.  C13: without a repair the
    plain error is reported. *)
From Verif Require Import First Fuel ApiProofs LexProofs PropsTotal PropsRecovery.

Section PropsFirst.
Context {T : Type} {V : nat -> Type}.
Variable E : env T V.

Lemma bare_inv A (g : gram T V A) : bare_with E A g ->
  match g with
  | GRecoverWith _ _ _ | GRecoverWithFn _ _ _ => True
  | GFmap p _ => bare_with E _ p
  | GRecover p | GBlock p | GAligned p | GIndented _ p => bare_with E _ p
  | GBind p f => bare_with E _ p \/ exists v, lang E _ p [] v /\ bare_with E _ (f v)
  | GSeq p q _ => bare_with E _ p \/ exists v, lang E _ p [] v /\ bare_with E _ q
  | GDelay d => bare_with E _ (E d)
  | _ => False
  end.
Proof. intros H. destruct H; eauto. Qed.

Lemma plain_error n A (g : gram T V A) s k get fmt r e :
  parse E n g s false k get fmt = Ret r -> unwrap r false = Raises e ->
  exists x, fast E n g s 0 (init_ctx get) = Ret (SErr x) /\
    e = [ErrorItem (er_loc x) (fmt (er_loc x)) (er_exp x) None].
Proof.
  intros H He. apply parse_fast in H as (Hf & sr & H & Hr). unfold unwrap in He. rewrite Hr in He.
  destruct sr as [o|x]; simpl in He; [discriminate|]. injection He as <-. exists x. rewrite Hf. auto.
Qed.

Lemma first_agree n m A (g : gram T V A) s k k' get fmt r r' e locof :
  wf_env E -> wf g -> cohere get s locof -> lay_ok E g s locof ->
  attempt_free E g -> single_withs E g ->
  parse E n g s false k get fmt = Ret r -> unwrap r false = Raises e ->
  parse E m g s true k' get fmt = Ret r' ->
  pr_fmt r' = fmt /\
  exists x, e = [ErrorItem (er_loc x) (fmt (er_loc x)) (er_exp x) None] /\
    agrees (has_with E A g) (bare_with E A g) x (pr_result r').
Proof.
  intros HE Hg Hco Hlay Ha Hw H He H'.
  destruct (plain_error _ _ _ _ _ _ _ _ _ H He) as (x & Hx & ->).
  apply parse_full in H' as [Hf H']. split; auto. exists x. split; auto.
  assert (G : (forall B (q : gram T V B), occurs E q A g -> gok (exactpos s locof) q) /\
     forall d, gok (exactpos s locof) (E d)).
  { destruct Hlay as [L|[L1 L2]]; split; intros.
    - apply gok_wf; auto. eapply occurs_wf; eauto.
    - apply gok_wf; auto.
    - apply gok_wf; [eapply occurs_wf; eauto|right].
      assert (K : everywhere E (fun B (q : gram T V B) => no_layout q) g).
      { intros C r0 Ho. clear - L1 L2 Ho. induction Ho; auto; try (apply IHHo; apply L1). }
      apply K. auto.
    - apply gok_wf; auto. }
  destruct G as [G1 G2].
  apply (fast_mono E n (n + m)) in Hx; [|discriminate|lia].
  apply (full_mono E m (n + m)) in H'; [|discriminate|lia].
  assert (Hfine : everywhere E (fine E (exactpos s locof)) g).
  { intros B q Ho. split; [auto|]. split; [apply Ha; auto|apply Hw; auto]. }
  exact (full_first E s get locof (exactpos s locof) (pos_system s get locof _ Hco (fun x => x)) G2 HE
    (n + m) _ _ _ _ _ _ _ _ Hfine (Nat.le_0_l _) (pos_init _ _) Hx H').
Qed.
End PropsFirst.

(** ** C12  [e] is the error of the plain run, [errs] the errors reported after
    recovery.  The first of them is at the same location, and unless it stands
    for "no repair" it has the same expected list. *)
Theorem C12_first_error :
  forall T V (E : env T V) n m A (g : gram T V A) s k k' get fmt r r' e locof,
  wf_env E -> wf g -> cohere get s locof -> lay_ok E g s locof ->
  attempt_free E g -> single_withs E g ->
  parse E n g s false k get fmt = Ret r -> unwrap r false = Raises e ->
  parse E m g s true k' get fmt = Ret r' ->
  exists e0 e1 tl, e = [e0] /\ unwrap r' false = Raises (e1 :: tl) /\
    ei_loc e1 = ei_loc e0 /\ ei_loc_str e1 = ei_loc_str e0 /\
    (ei_op e1 <> None -> ei_expected e1 = ei_expected e0).
Proof.
  intros T V E n m A g s k k' get fmt r r' e locof HE Hg Hco Hlay Ha Hw H He H'.
  destruct (first_agree _ _ _ _ _ _ _ _ _ _ _ _ _ _ HE Hg Hco Hlay Ha Hw H He H') as (Hf & x & -> & K).
  eexists. unfold unwrap. rewrite Hf. destruct (pr_result r') as [o|e'|rc].
  - destruct K.
  - simpl in K. subst e'. do 2 eexists. split; [reflexivity|]. split; [reflexivity|]. simpl. auto.
  - destruct K as (K1 & K2 & K3 & K4). destruct (rc_reps rc) as [|y l] eqn:Hl.
    + do 2 eexists. split; [reflexivity|]. split; [reflexivity|]. simpl. rewrite K1. split; [auto|]. split; [auto|].
      intros C. destruct C. reflexivity.
    + assert (Hin : In (py_min y l) (y :: l)).
      { clear. revert y. induction l as [|a l IH]; intros y; simpl; [auto|].
        destruct (IH (if key_lt a y then a else y)) as [E1|E1]; [|auto].
        rewrite <- E1. destruct (key_lt a y); auto. }
      apply K4 in Hin as (o & tl & L1 & L2 & L3 & L4). rewrite L1.
      do 2 eexists. split; [reflexivity|]. split; [reflexivity|]. simpl. rewrite L2, L3. auto.
Qed.
Print Assumptions C12_first_error.

(** without recover_with the first error is the same in all cases *)
Theorem C12_first_error_without_recover_with :
  forall T V (E : env T V) n m A (g : gram T V A) s k k' get fmt r r' e locof,
  wf_env E -> wf g -> cohere get s locof -> lay_ok E g s locof ->
  attempt_free E g -> with_free E g ->
  parse E n g s false k get fmt = Ret r -> unwrap r false = Raises e ->
  parse E m g s true k' get fmt = Ret r' ->
  exists e0 e1 tl, e = [e0] /\ unwrap r' false = Raises (e1 :: tl) /\ same_error e1 e0.
Proof.
  intros T V E n m A g s k k' get fmt r r' e locof HE Hg Hco Hlay Ha Hw H He H'.
  assert (Hsw : single_withs E g).
  { intros B q Ho. specialize (Hw B q Ho). destruct q; simpl in *; tauto. }
  destruct (first_agree _ _ _ _ _ _ _ _ _ _ _ _ _ _ HE Hg Hco Hlay Ha Hsw H He H') as (Hf & x & -> & K).
  destruct (C12_first_error _ _ _ _ _ _ _ _ _ _ _ _ _ _ _ _ HE Hg Hco Hlay Ha Hsw H He H')
    as (e0 & e1 & tl & E0 & Hu & L1 & L2 & L3).
  injection E0 as <-. eexists. exists e1, tl. split; [reflexivity|]. split; auto. split; auto. split; auto.
  destruct (ei_op e1) eqn:Hop; [apply L3; discriminate|].
  unfold unwrap in Hu. destruct (pr_result r') as [o|e'|rc].
  - destruct K.
  - simpl in K. subst e'. injection Hu as <- <-. reflexivity.
  - destruct K as (K1 & K2 & K3 & K4). destruct (rc_reps rc) as [|y l] eqn:Hl.
    + injection Hu as <- <-. simpl. destruct K3 as [K3|[(B & q & Ho & Hq) _]]; auto. destruct (Hw B q Ho Hq).
    + destruct (map _ (r_ops (py_min y l))) as [|i is] eqn:Hm; [discriminate|]. injection Hu as -> ->.
      destruct (r_ops (py_min y l)) as [|o os]; [discriminate|]. injection Hm as <- _. discriminate.
Qed.
Print Assumptions C12_first_error_without_recover_with.

(** ** C13  No repair was found: [unwrap(recover=True)] raises. *)
Theorem C13_no_repair_plain_error :
  forall T V (E : env T V) n m A (g : gram T V A) s k k' get fmt r r' e errs locof,
  wf_env E -> wf g -> cohere get s locof -> lay_ok E g s locof ->
  attempt_free E g -> with_free E g ->
  parse E n g s false k get fmt = Ret r -> unwrap r false = Raises e ->
  parse E m g s true k' get fmt = Ret r' -> unwrap r' true = Raises errs ->
  errs = e /\ unwrap r' false = Raises e.
Proof.
  intros T V E n m A g s k k' get fmt r r' e errs locof HE Hg Hco Hlay Ha Hw H He H' Hu.
  destruct (C12_first_error_without_recover_with _ _ _ _ _ _ _ _ _ _ _ _ _ _ _ _ HE Hg Hco Hlay Ha Hw H He H')
    as (e0 & e1 & tl & -> & Hu' & L1 & L2 & L3).
  destruct (plain_error _ _ _ _ _ _ _ _ _ _ H He) as (x & _ & Hx).
  injection Hx as ->. simpl in L1, L2, L3.
  unfold unwrap in Hu, Hu' |- *. destruct (pr_result r') as [o|e'|rc]; [discriminate| |].
  - injection Hu as <-. injection Hu' as <- <-. simpl in *. rewrite L1, L3 in *. rewrite L2. auto.
  - destruct (rc_reps rc); [|discriminate]. injection Hu as <-. injection Hu' as <- <-. simpl in *.
    rewrite L1, L3 in *. rewrite L2. auto.
Qed.
Print Assumptions C13_no_repair_plain_error.

(** ** Cases *)
Lemma ex_attempt_free : attempt_free ex_E ex_top.
Proof. apply everywhere_gall; [intros d|]; solve_gall. Qed.
Lemma ex_single_withs : single_withs ex_E ex_top.
Proof.
  apply everywhere_gall; [intros d|]; solve_gall; intros H; apply bare_inv in H; exact H.
Qed.
(** both runs on an input with two mistakes *)
Example C12_case :
  wf_env ex_E /\ wf ex_top /\ attempt_free ex_E ex_top /\ single_withs ex_E ex_top /\
  match ex_parse "1+(+2" false 5, ex_parse "1+(+2" true 5 with
  | Ret r, Ret r' =>
      exists e0 e1 e2, unwrap r false = Raises [e0] /\ unwrap r' false = Raises [e1; e2] /\
        ei_loc_str e0 = "1:4"%string /\ ei_loc_str e1 = "1:4"%string /\
        ei_expected e0 = ["digit"; "'('"]%string /\ ei_expected e1 = ["digit"; "'('"]%string
  | _, _ => False
  end.
Proof.
  split; [apply ex_wf_E|]. split; [apply ex_wf|]. split; [apply ex_attempt_free|].
  split; [apply ex_single_withs|]. vm_compute. do 3 eexists. repeat split; reflexivity.
Qed.

(** a grammar without repairs for its input: a required digit that never comes *)
Definition c13_top : ex_gram char :=
  seqr (ex_sym "(") (GLabel (GSatisfy (fun x => Ret (N.leb 48 x && N.leb x 57))) "digit").
Lemma c13_ok : wf_env lay_E /\ wf c13_top /\ attempt_free lay_E c13_top /\ with_free lay_E c13_top.
Proof.
  split; [intros d; solve_gall|]. split; [solve_gall|].
  split; apply everywhere_gall; try intros d; solve_gall.
Qed.
Example C13_case :
  match parse lay_E 9 c13_top (ex_str "(ab") false 5 scannerless_get_loc linecol_fmt,
        parse lay_E 9 c13_top (ex_str "(ab") true 5 scannerless_get_loc linecol_fmt with
  | Ret r, Ret r' => unwrap r false = unwrap r' true /\ exists e, unwrap r false = Raises [e] /\
      ei_loc_str e = "1:2"%string /\ ei_expected e = ["digit"]%string
  | _, _ => False
  end.
Proof. vm_compute. split; [reflexivity|]. eexists. repeat split; reflexivity. Qed.

(** ** Each condition is needed: the claims fail without it *)
(** with [attempt], the two modes can report different first errors *)
Definition c12_att : ex_gram (char * char) :=
  GAlt (GAttempt (GSeq (ex_sym "a") (ex_sym "b") pair)) (GSeq (ex_sym "x") (ex_sym "y") pair).
Theorem C12_attempt_differs :
  exists r r' e0 e1 tl,
    parse lay_E 9 c12_att (ex_str "ac") false 5 scannerless_get_loc linecol_fmt = Ret r /\
    parse lay_E 9 c12_att (ex_str "ac") true 5 scannerless_get_loc linecol_fmt = Ret r' /\
    unwrap r false = Raises [e0] /\ unwrap r' false = Raises (e1 :: tl) /\
    ei_loc e1 = ei_loc e0 /\ ei_expected e0 = ["'b'"; "'x'"]%string /\ ei_expected e1 = ["'b'"]%string.
Proof. vm_compute. do 5 eexists. do 2 (split; [reflexivity|]). do 2 (split; [reflexivity|]). auto. Qed.
Print Assumptions C12_attempt_differs.

(** with a [recover_with] applied to a [recover_with], the expected list is lost
    although a repair was found *)
Definition c12_letter : ex_gram char := GLabel (GSatisfy (fun x => Ret (N.leb 97 x && N.leb x 122))) "letter".
Definition c12_two : ex_gram char := GRecoverWith (GRecoverWith c12_letter (ex_ch "x") "l1") (ex_ch "y") "l2".
Theorem C12_double_recover_with_differs :
  exists r r' e0 e1,
    parse lay_E 9 c12_two [] false 5 scannerless_get_loc linecol_fmt = Ret r /\
    parse lay_E 9 c12_two [] true 5 scannerless_get_loc linecol_fmt = Ret r' /\
    unwrap r false = Raises [e0] /\ unwrap r' false = Raises [e1] /\ ei_op e1 = Some (Insert "l2") /\
    ei_expected e0 = ["letter"]%string /\ ei_expected e1 = [].
Proof. vm_compute. do 4 eexists. do 2 (split; [reflexivity|]). do 2 (split; [reflexivity|]). auto. Qed.
Print Assumptions C12_double_recover_with_differs.

(** with [recover_with], the error reported when no repair exists has lost its
    expected list *)
Definition c13_lost : ex_gram char :=
  seqr (GRecoverWith c12_letter (ex_ch "b") "letter") (GLabel (GSatisfy (fun x => Ret (N.leb 48 x && N.leb x 57))) "digit").
Theorem C13_recover_with_differs :
  attempt_free lay_E c13_lost /\ single_withs lay_E c13_lost /\
  exists r r' e0 e1,
    parse lay_E 9 c13_lost [] false 5 scannerless_get_loc linecol_fmt = Ret r /\
    parse lay_E 9 c13_lost [] true 5 scannerless_get_loc linecol_fmt = Ret r' /\
    unwrap r false = Raises [e0] /\ unwrap r' true = Raises [e1] /\
    ei_expected e0 = ["letter"]%string /\ ei_expected e1 = [].
Proof.
  split; [apply everywhere_gall; [intros d|]; solve_gall|].
  split; [apply everywhere_gall; [intros d|]; solve_gall; intros H; apply bare_inv in H; exact H|].
  vm_compute. do 4 eexists. do 2 (split; [reflexivity|]). do 2 (split; [reflexivity|]). auto.
Qed.
Print Assumptions C13_recover_with_differs.
