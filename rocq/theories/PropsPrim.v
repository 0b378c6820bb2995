(** Property C50: what literal, sym, recover_with and recover_with_fn match, and
    the names under which they are reported. *)
From Verif Require Import Lexer Locations PropsDiag PropsRecovery Examples.

(** literal(s) raises iff [s] is empty; otherwise it accepts exactly the inputs
    that start with [s] and returns [s]. *)
Theorem C50_literal :
  forall V (E : env char V) repr x,
  (literal (V:=V) N.eqb repr x = Raise EmptyLiteral <-> x = []) /\
  (x <> [] -> exists g : gram char V (list char), literal N.eqb repr x = Ret g /\ wf g /\
    forall s n r, scannerless_parse E (S n) g s false = Ret r ->
      (forall v, unwrap r false = Returns v <-> v = x /\ exists rest, s = x ++ rest) /\
      (forall errs, unwrap r false = Raises errs <->
         (~ exists rest, s = x ++ rest) /\
         errs = [{| ei_loc := true_loc s 0; ei_loc_str := linecol_fmt (true_loc s 0);
                    ei_expected := [repr x]; ei_op := None |}])).
Proof.
  intros V E repr x. split.
  - destruct x; simpl; split; intros H; try discriminate; auto.
  - intros Hx. exists (GLiteral N.eqb x (repr x)). split; [destruct x; [contradiction|reflexivity]|].
    split; [repeat split; auto; intros; apply N.eqb_refl|].
    intros s n r H.
    assert (P : is_prefix (T:=char) N.eqb x s = true <-> exists rest, s = x ++ rest).
    { clear. revert s. induction x as [|a x IH]; intros [|b s]; simpl; split; intros H; eauto; try discriminate.
      - destruct H as [rest H]. discriminate.
      - apply andb_true_iff in H as [H1 H2]. apply N.eqb_eq in H1 as ->. apply IH in H2 as [rest ->]. eauto.
      - destruct H as [rest H]. injection H as -> ->. rewrite N.eqb_refl. apply IH. eauto. }
    unfold scannerless_parse, parse in H. cbn [fast] in H. unfold literal_fast, starts_with in H.
    change (skipn 0 s) with s in H. destruct (is_prefix (T:=char) N.eqb x s) eqn:Hp; cbn in H; injection H as <-.
    + split; intros w; unfold unwrap; cbn; split; intros H; try discriminate.
      * injection H as <-. split; auto. apply P. reflexivity.
      * destruct H as [-> _]. reflexivity.
      * destruct H as [H _]. destruct H. apply P. reflexivity.
    + assert (Hl : get_loc (init_ctx scannerless_get_loc) s 0 = true_loc s 0).
      { unfold get_loc, init_ctx. simpl. rewrite (proj1 (scannerless_exact s)). reflexivity. }
      split; intros w; unfold unwrap; cbn; split; intros H; try discriminate.
      * destruct H as [_ H]. apply P in H. discriminate.
      * injection H as <-. rewrite <- Hl. split; [|reflexivity]. intros K. apply P in K. discriminate.
      * destruct H as [_ ->]. rewrite <- Hl. reflexivity.
Qed.
Print Assumptions C50_literal.

(** sym(t) on a token stream compares kind and value; the locations of the
    tokens play no role. *)
Lemma chars_eqb_spec a b : chars_eqb a b = true <-> a = b.
Proof.
  revert b. induction a as [|x a IH]; intros [|y b]; simpl; split; intros H; auto; try discriminate.
  - apply andb_true_iff in H as [H1 H2]. apply N.eqb_eq in H1 as ->. f_equal. apply IH. exact H2.
  - injection H as -> ->. rewrite N.eqb_refl. apply IH. reflexivity.
Qed.
Theorem C50_sym_tokens :
  forall V (E : env token V) repr x lab n s r,
  lexer_parse E n (sym token_eqb repr x lab : gram token V token) s false = Ret r ->
  (forall v, unwrap r false = Returns v <->
     hd_error s = Some v /\ tk_kind v = tk_kind x /\ tk_value v = tk_value x).
Proof.
  intros V E repr x lab n s r H v. destruct n as [|n]; [discriminate|].
  unfold lexer_parse, parse, sym in H. cbn [fast] in H. unfold sym_fast in H.
  destruct s as [|t s]; cbn in H.
  - injection H as <-. unfold unwrap. cbn. split; [discriminate|]. intros [H _]. discriminate.
  - assert (Q : token_eqb t x = true <-> tk_kind t = tk_kind x /\ tk_value t = tk_value x).
    { unfold token_eqb. rewrite andb_true_iff, String.eqb_eq, chars_eqb_spec. tauto. }
    destruct (token_eqb t x) eqn:Ht; cbn in H; injection H as <-; unfold unwrap; cbn; split; intros H.
    + injection H as <-. split; auto. apply Q. reflexivity.
    + destruct H as [H _]. injection H as ->. reflexivity.
    + discriminate.
    + destruct H as [H K]. injection H as ->. apply Q in K. discriminate.
Qed.
Print Assumptions C50_sym_tokens.

(** The name under which a missing symbol is expected and inserted is the label,
    or its repr; likewise for the placeholder of recover_with and
    recover_with_fn, whose parser keeps its own expectations. *)
Definition name_of {A} (repr : A -> string) (x : A) (lab : option string) : string :=
  match lab with Some l => l | None => repr x end.
Theorem C50_names :
  forall T V (E : env T V) get fmt mi rec, mi <> 0%Z ->
  let errors (x : string) (op : option rop) l :=
    [{| ei_loc := l; ei_loc_str := fmt l; ei_expected := [x]; ei_op := op |}] in
  (forall teq repr x lab n r,
     parse E n (sym teq repr x lab : gram T V T) [] rec mi get fmt = Ret r ->
     unwrap r false = Raises (errors (name_of repr x lab)
       (if rec then Some (Insert (name_of repr x lab)) else None) (get_loc (init_ctx get) [] 0)) /\
     (rec = true -> unwrap r true = Returns x)) /\
  (forall A (repr : A -> string) (x : A) lab expected n r,
     parse E n (recover_with repr (GUnexpected expected) x lab : gram T V A) [] rec mi get fmt = Ret r ->
     unwrap r false = Raises (errors expected
       (if rec then Some (Insert (name_of repr x lab)) else None) (get_loc (init_ctx get) [] 0)) /\
     (rec = true -> unwrap r true = Returns x)) /\
  (forall A (repr : A -> string) (fn : list T -> nat -> out A) x lab expected n r,
     fn [] 0 = Ret x ->
     parse E n (recover_with_fn repr (GUnexpected expected) fn lab : gram T V A) [] rec mi get fmt = Ret r ->
     unwrap r false = Raises (errors expected
       (if rec then Some (Insert (name_of repr x lab)) else None) (get_loc (init_ctx get) [] 0)) /\
     (rec = true -> unwrap r true = Returns x)).
Proof.
  intros T V E get fmt mi rec Hm errors. apply Z.eqb_neq in Hm. split; [|split].
  - intros teq repr x lab n r H. destruct n as [|n]; [destruct rec; discriminate|].
    destruct rec; unfold parse, sym in H; cbn [full fast] in H;
      [unfold sym_full in H|unfold sym_fast in H]; cbn in H; rewrite ?Hm in H; injection H as <-; split;
      try discriminate; destruct lab; reflexivity.
  - intros A repr x lab ex n r H. destruct n as [|[|n]]; [destruct rec; discriminate|destruct rec; discriminate|].
    destruct rec; unfold parse, recover_with in H; cbn [full fast] in H;
      [unfold recover_with_full in H|]; cbn in H; rewrite ?Hm in H; injection H as <-; split;
      try discriminate; destruct lab; reflexivity.
  - intros A repr fn x lab ex n r Hf H. destruct n as [|[|n]]; [destruct rec; discriminate|destruct rec; discriminate|].
    destruct rec; unfold parse, recover_with_fn in H; cbn [full fast] in H;
      [unfold recover_with_full in H|]; cbn in H; rewrite ?Hm in H; cbn in H; rewrite ?Hf in H; cbn in H;
      injection H as <-; split; try discriminate; destruct lab; reflexivity.
Qed.
Print Assumptions C50_names.

(** tokens at different places are equal to sym; a token of another kind with the
    same value is not *)
Example C50_case :
  let num := Token "num" (ex_str "1") (Loc 0 0 0) (Loc 1 0 1) in
  let elsewhere := Token "num" (ex_str "1") (Loc 7 2 3) (Loc 8 2 4) in
  let op := Token "op" (ex_str "1") (Loc 0 0 0) (Loc 1 0 1) in
  let p := sym token_eqb (fun _ => "?"%string) num None : gram token ex_V token in
  match lexer_parse (fun _ => GUndef) 5 p [elsewhere] false, lexer_parse (fun _ => GUndef) 5 p [op] false with
  | Ret r, Ret r' => unwrap r false = Returns elsewhere /\ exists errs, unwrap r' false = Raises errs
  | _, _ => False
  end.
Proof. vm_compute. split; [reflexivity|eexists; reflexivity]. Qed.
