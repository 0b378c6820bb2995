(** Concrete grammars used to show that the hypotheses of the theorems are met
    by non-trivial cases: an expression grammar with recursion, choice,
    repetition, recover_with and eof, and a layout grammar. *)
From Coq Require Export Ascii.
From Verif Require Export ApiSpec.

Definition ex_ch (a : ascii) : char := N_of_ascii a.
Fixpoint ex_str (s : string) : list char :=
  match s with EmptyString => [] | String a s' => ex_ch a :: ex_str s' end.

Definition ex_V : nat -> Type := fun _ => Z.
Notation ex_gram := (gram char ex_V).
Definition ex_sym (a : ascii) : ex_gram char :=
  GSym N.eqb (ex_ch a) (String "'" (String a "'")).
Definition ex_digit : ex_gram Z :=
  GFmap (GLabel (GSatisfy (fun x => Ret (N.leb 48 x && N.leb x 57))) "digit")
    (fun x => Ret (Z.of_N x - 48)%Z).
Definition ex_paren : ex_gram Z :=
  between (ex_sym "(") (ex_sym ")") (GDelay 0).
Definition ex_value : ex_gram Z := GRecoverWith (GAlt ex_digit ex_paren) 0%Z "value".
Definition ex_plus : ex_gram (Z -> Z -> out Z) :=
  seqr (ex_sym "+") (GPure (fun x y => Ret (x + y)%Z)).
(** Delay 0 is the expression parser *)
Definition ex_expr : ex_gram Z := chainl1 ex_value ex_plus.
Definition ex_E : env char ex_V := fun _ => ex_expr.
Definition ex_top : ex_gram Z := seql (GDelay 0) GEof.

Ltac solve_gall := repeat split; simpl; auto; try tauto; try discriminate.

Lemma ex_wf_expr : wf ex_expr.
Proof. solve_gall. Qed.
Lemma ex_wf_E : wf_env ex_E.
Proof. intros d. exact ex_wf_expr. Qed.
Lemma ex_wf : wf ex_top.
Proof. solve_gall. Qed.
Lemma ex_no_layout : no_layout ex_top /\ forall d, no_layout (ex_E d).
Proof. split; [|intros d]; solve_gall. Qed.

Definition ex_parse (s : string) (rec : bool) (mi : Z) : out (presult char Z) :=
  parse ex_E 150 ex_top (ex_str s) rec mi scannerless_get_loc linecol_fmt.

(** A layout grammar: a block of aligned digits, each followed by a newline
    or spaces (scannerless). *)
Definition lay_nl : ex_gram (list char) :=
  GMany (GSatisfy (fun x => Ret (N.eqb x 10 || N.eqb x 32))).
Definition lay_line : ex_gram Z := seql ex_digit lay_nl.
Definition lay_top : ex_gram (list Z) :=
  seqr lay_nl (GBlock (GMany (GAligned lay_line))).
Definition lay_E : env char ex_V := fun _ => GUndef.
Definition lay_nltxt : string := String (ascii_of_N 10) EmptyString.
Definition lay_input : list char :=
  ex_str ("  1" ++ lay_nltxt ++ "  2" ++ lay_nltxt ++ " 3")%string.
Lemma lay_wf : wf lay_top /\ wf_env lay_E.
Proof. split; [|intros d]; solve_gall. Qed.
