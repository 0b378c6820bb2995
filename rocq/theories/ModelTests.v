(** Tests of the model (not proofs of properties): the expectations of the
    repository's own test suite, evaluated on the model.  They tie the model
    to behaviour of the real code that its authors have checked. *)
From Coq Require Import Ascii.
From Verif Require Import Lexer.
Local Open Scope string_scope.
Local Open Scope list_scope.
Local Infix "+++" := String.append (at level 60, right associativity).

Definition ch (a : ascii) : char := N_of_ascii a.
Fixpoint chars (s : string) : list char :=
  match s with EmptyString => [] | String a s' => ch a :: chars s' end.
Fixpoint unchars (l : list char) : string :=
  match l with [] => EmptyString | c :: l' => String (ascii_of_N c) (unchars l') end.
Definition str1 (c : char) : string := unchars [c].
Definition repr_s (s : string) : string := "'" +++ s +++ "'".
Definition repr_c (c : char) : string := repr_s (str1 c).

Definition FUEL := 60.

(** one Delay of type [string] / [Z] *)
Definition VS : nat -> Type := fun _ => string.
Definition P := gram char VS.
Definition noenv : env char VS := fun _ => GUndef.

Definition sy (s : string) : P string :=
  match chars s with
  | c :: _ => GFmap (sym N.eqb repr_c c None) (fun c => Ret (str1 c))
  | [] => GUndef
  end.
Definition cat (p q : P string) : P string := GSeq p q (fun a b => a +++ b).
Definition fm {A B} (p : P A) (f : A -> B) : P B := GFmap p (fun x => Ret (f x)).
Definition concat (l : list string) : string := fold_right String.append "" l.

Definition run_default {A} (p : P A) (s : string) (rec : bool) : out (presult char A) :=
  parse noenv FUEL p (chars s) rec 5 default_get_loc default_fmt_loc.
Definition val {A} (r : out (presult char A)) (rec : bool) : option A :=
  match r with Ret r => match unwrap r rec with Returns v => Some v | _ => None end | _ => None end.
Definition errs {A} (r : out (presult char A)) : option (list erroritem) :=
  match r with Ret r => match unwrap r false with Raises e => Some e | _ => None end | _ => None end.
Definition errstr {A} (r : out (presult char A)) : option string :=
  option_map parse_error_str (errs r).

(** ** tests/test_parsing.py *)
Definition a := sy "a". Definition b := sy "b". Definition c := sy "c".
Definition comma := sy ",".
Definition isalpha (x : char) : bool :=
  (N.leb 65 x && N.leb x 90) || (N.leb 97 x && N.leb x 122).
Definition isdigit (x : char) : bool := N.leb 48 x && N.leb x 57.
Definition letter : P string :=
  fm (GLabel (GSatisfy (fun x => Ret (isalpha x))) "letter") str1.
Definition digit : P string :=
  fm (GLabel (GSatisfy (fun x => Ret (isdigit x))) "digit") str1.

Definition maybe_a_b :=
  cat (fm (GMaybe a) (fun v => match v with None => "None" | Some x => x end)) b.
Definition ident :=
  GSeq (GAlt letter (sy "_")) (GMany (GAlt (GAlt letter digit) (sy "_")))
    (fun x l => x +++ concat l).
Definition empty_fst : P string := GAlt (GPure "a") b.
Definition empty_snd : P string := GAlt a (GPure "b").
Definition bind_letter : P string :=
  GAlt (GBind letter (fun l => if String.eqb l "d" then digit else letter)) (GPure "!").
Definition attempt_seq : P string := GAlt (GAttempt (cat a b)) (GPure "!").
Definition opf (o : string) : P (string -> string -> out string) :=
  seqr (sy o) (GPure (fun x y => Ret ("(" +++ x +++ o +++ y +++ ")"))).
Definition chains : P string := chainr1 (chainl1 letter (opf ">")) (opf "<").

Definition DATA_POSITIVE : list (P string * string * string) := [
  (GPure "a", "", "a"); (GPureFn (fun _ => Ret "a"), "", "a");
  (GBind (GPure "a") (fun _ => b), "b", "b");
  (seql a b, "ab", "a"); (seqr a b, "ab", "b");
  (maybe_a_b, "ab", "ab"); (maybe_a_b, "b", "Noneb");
  (ident, "a", "a"); (ident, "ab", "ab"); (ident, "a_b", "a_b");
  (ident, "a0_b", "a0_b"); (ident, "_a0_b", "_a0_b"); (ident, "_a0_b.", "_a0_b");
  (empty_fst, "a", "a"); (empty_fst, "b", "a"); (empty_fst, "c", "a");
  (empty_snd, "a", "a"); (empty_snd, "b", "b"); (empty_snd, "c", "b");
  (bind_letter, "ab", "b"); (bind_letter, "d0", "0"); (bind_letter, "00", "!");
  (attempt_seq, "ab", "ab"); (attempt_seq, "ac", "!");
  (chains, "a", "a"); (chains, "a>b", "(a>b)"); (chains, "a<b", "(a<b)");
  (chains, "a>b>c", "((a>b)>c)"); (chains, "a<b<c", "(a<(b<c))");
  (chains, "a>b<c", "((a>b)<c)"); (chains, "a<b>c", "(a<(b>c))");
  (chains, "a>b<c>d", "((a>b)<(c>d))"); (chains, "a<b>c<d", "(a<((b>c)<d))")].

Definition ostr_eqb (x : option string) (y : string) : bool :=
  match x with Some x => String.eqb x y | None => false end.

Example test_parsing_positive :
  forallb (fun '(p, s, v) =>
    ostr_eqb (val (run_default p s false) false) v &&
    ostr_eqb (val (run_default p s true) false) v) DATA_POSITIVE = true.
Proof. vm_compute. reflexivity. Qed.

Example test_parsing_negative :
  forall rec, match errs (run_default ident "0" rec) with
              | Some (e :: _) => ei_expected e = ["letter"; "'_'"] | _ => False end.
Proof. intros []; vm_compute; reflexivity. Qed.

(** ** tests/test_recovery.py *)
Definition ab := cat a b. Definition cab := cat c ab. Definition aba := cat ab a.
Definition abaa := cat aba a. Definition aaba := cat a aba. Definition caba := cat c aba.

(** optional and list values are rendered as strings *)
Definition om (p : P (option string)) : P string :=
  fm p (fun v => match v with None => "None" | Some x => x end).
Definition lm (p : P (list string)) : P string :=
  fm p (fun l => concat (map (fun x => x +++ ";") l)).

Definition DATA_RECOVERY : list (P string * string * string) := [
  (ab, "ab", "ab"); (ab, "_ab", "ab"); (ab, "_a_b", "ab"); (ab, "b", "ab");
  (ab, "a", "ab"); (ab, "_a", "ab");
  (GBind ab (fun s => fm a (fun x => s +++ x)), "aba", "aba");
  (GBind ab (fun s => fm a (fun x => s +++ x)), "aa", "aba");
  (GBind ab (fun s => fm a (fun x => s +++ x)), "_a_a", "aba");
  (GAlt ab b, "ab", "ab"); (GAlt ab b, "b", "b"); (GAlt ab b, "", "ab");
  (GAlt ab b, "a", "ab"); (GAlt ab b, "_ab", "ab"); (GAlt ab b, "a_b", "ab");
  (GAlt ab b, "_a_b", "ab");
  (om (GMaybe ab), "ab", "ab"); (om (GMaybe ab), "", "None");
  (om (GMaybe ab), "b", "None"); (om (GMaybe ab), "_ab", "None");
  (om (GMaybe ab), "a", "ab");
  (lm (GMany ab), "a", "ab;"); (lm (GMany ab), "aa", "ab;ab;");
  (lm (GMany ab), "ac", "ab;");
  (lm (sep_by ab comma), "ab,ab,ab", "ab;ab;ab;");
  (lm (sep_by ab comma), "ab,ab,ab,", "ab;ab;ab;ab;");
  (lm (sep_by ab comma), "ab,ab,,ab", "ab;ab;ab;");
  (lm (sep_by ab comma), "ab,abab", "ab;ab;");
  (lm (sep_by ab comma), "ab,a,ab", "ab;ab;ab;");
  (lm (sep_by ab comma), "ab,b,ab", "ab;ab;ab;");
  (GAlt ab a, "ab", "ab"); (GAlt (GAttempt ab) a, "ab", "ab");
  (GAlt ab a, "a", "ab"); (GAlt (GAttempt ab) a, "a", "a");
  (cat a (GAttempt b), "a", "ab"); (cat a (GAttempt b), "b", "ab");
  (recover_with repr_s ab "b" None, "ab", "ab");
  (recover_with repr_s ab "b" None, "_ab", "ab");
  (recover_with repr_s ab "b" None, "a", "ab");
  (recover_with repr_s ab "b" None, "b", "ab");
  (recover_with repr_s ab "b" None, "", "b");
  (recover_with_fn repr_s ab (fun _ _ => Ret "b") None, "a", "ab");
  (recover_with_fn repr_s ab (fun _ _ => Ret "b") None, "", "b");
  (GAlt (recover_with repr_s ab "b" None) a, "", "b");
  (GAlt (recover_with_fn repr_s ab (fun _ _ => Ret "b") None) a, "", "b");
  (cat (recover_with repr_s a "b" None) (GAttempt b), "b", "bb");
  (GAlt ab cab, "ab", "ab"); (GAlt ab cab, "cab", "cab");
  (GAlt ab cab, "b", "ab"); (GAlt cab ab, "b", "cab");
  (seql (GAlt ab cab) a, "", "ab"); (seql (GAlt cab ab) a, "", "cab");
  (GAlt abaa caba, "b", "abaa"); (GAlt caba abaa, "b", "caba");
  (GAlt aaba caba, "b", "aaba"); (GAlt caba aaba, "b", "caba")].

Example test_recovery :
  forallb (fun '(p, s, v) =>
    ostr_eqb (val (run_default (seql p GEof) s true) true) v) DATA_RECOVERY = true.
Proof. vm_compute. reflexivity. Qed.

(** parser.py:293-306  docstring of recover *)
Example doc_recover1 :
  errstr (run_default (GAlt (cat a b) (cat b c)) "c" true) =
  Some "at 0: expected 'a' or 'b' (inserted 'a'), at 0: expected 'b' (inserted 'b')".
Proof. vm_compute. reflexivity. Qed.
Example doc_recover2 :
  errstr (run_default (GAlt (cat a b) (cat (GRecover b) c)) "c" true) =
  Some "at 0: expected 'a' or 'b' (inserted 'b')".
Proof. vm_compute. reflexivity. Qed.

(** ** tests/test_validation.py *)
Example test_many_unconsumed :
  parse noenv FUEL (GMany GEof) (chars "") false 5 default_get_loc default_fmt_loc
    = Raise ManyEmpty /\
  parse noenv FUEL (GMany GEof) (chars "") true 5 default_get_loc default_fmt_loc
    = Raise ManyEmpty.
Proof. split; reflexivity. Qed.

(** ** tests/test_layout.py; \s+ is written as an oracle *)
Fixpoint span (f : char -> bool) (l : list char) : nat :=
  match l with x :: l' => if f x then S (span f l') else 0 | [] => 0 end.
Definition isspace (x : char) : bool := N.eqb x 32 || (N.leb 9 x && N.leb x 13).
(** pattern [class]{min,}: longest run of at least [min] characters *)
Definition re_run (f : char -> bool) (min : nat) (s : list char) (pos : nat)
    : option (nat * option string) :=
  let k := span f (skipn pos s) in
  if Nat.leb min k then Some (pos + k, Some (unchars (slice s pos (pos + k)))) else None.
Definition ws : P string := GRegexp (re_run isspace 1).
Definition run_scan {A} (p : P A) (s : string) (rec : bool) : out (presult char A) :=
  scannerless_parse noenv FUEL p (chars s) rec.

Example test_layout_positive :
  forallb (fun '(p, s) =>
    ostr_eqb (val (run_scan (seql p GEof) s false) false) "a" &&
    ostr_eqb (val (run_scan (seql p GEof) s true) false) "a")
  [(GBlock a, "a"); (GAligned a, "a"); (GBlock (GAligned a), "a");
   (seqr ws (GIndented 2 a), "  a")] = true.
Proof. vm_compute. reflexivity. Qed.
Example test_layout_negative :
  forall rec,
  match errs (run_scan (seqr ws (GIndented 2 a)) " a" rec),
        errs (run_scan (seqr ws (GAligned a)) " a" rec) with
  | Some (e1 :: _), Some (e2 :: _) =>
      ei_expected e1 = ["indentation"] /\ ei_expected e2 = ["indentation"]
  | _, _ => False end.
Proof. intros []; vm_compute; split; reflexivity. Qed.

(** ** tests/parsers/expr.py and tests/test_expr.py *)
Definition VZ : nat -> Type := fun _ => Z.
Definition Q := gram char VZ.
Definition spacesQ : Q string := GRegexp (re_run isspace 0).
Fixpoint int_of (acc : Z) (l : list char) : Z :=
  match l with [] => acc | x :: l' => int_of (acc * 10 + (Z.of_N x - 48)) l' end.
Definition numberQ : Q Z :=
  seql (GFmap (GRegexp (re_run isdigit 1)) (fun s => Ret (int_of 0 (chars s)))) spacesQ.
Definition re_one (f : char -> bool) (s : list char) (pos : nat) : option (nat * option char) :=
  match nth_error s pos with
  | Some x => if f x then Some (pos + 1, Some x) else None
  | None => None
  end.
Definition op_action (o : char) : out (Z -> Z -> out Z) :=
  Ret (fun x y => Ret (if N.eqb o 43 then x + y else if N.eqb o 45 then x - y else x * y))%Z.
Definition mul_op : Q (Z -> Z -> out Z) :=
  seql (GFmap (GRegexp (re_one (fun x => N.eqb x 42))) op_action) spacesQ.
Definition add_op : Q (Z -> Z -> out Z) :=
  seql (GFmap (GRegexp (re_one (fun x => N.eqb x 43 || N.eqb x 45))) op_action) spacesQ.
Definition litQ (s : string) : Q (list char) := GLiteral N.eqb (chars s) (repr_s s).
Definition l_paren := seql (litQ "(") spacesQ.
Definition r_paren := seql (litQ ")") spacesQ.
Definition expr_def : Q Z :=
  chainl1 (chainl1 (GAlt numberQ (between l_paren r_paren (GDelay 0))) mul_op) add_op.
Definition exprE : env char VZ := fun _ => expr_def.
Definition expr_parser : Q Z := seql (GDelay 0) GEof.
Definition run_expr (s : string) (rec : bool) := scannerless_parse exprE 200 expr_parser (chars s) rec.

Example test_expr_positive :
  map (fun s => val (run_expr s false) false)
    ["1"; "1 + 2"; "2 - 1"; "2 * 3"; "1 + 2 * 3"; "(1 + 2) * 3"; "((1) + (2))"]
  = map Some [1; 3; 1; 6; 7; 9; 3]%Z.
Proof. vm_compute. reflexivity. Qed.
Example test_expr_negative :
  map (fun s => errstr (run_expr s false)) [""; "1 1"; "1 +"; "1 )"; "1 + 2 * * (3 + 4)"]
  = map Some ["at 1:1: expected '('"; "at 1:3: expected end of file"; "at 1:4: expected '('";
      "at 1:3: expected end of file"; "at 1:9: expected '('"].
Proof. vm_compute. reflexivity. Qed.
Example test_expr_recovery :
  map (fun s => (val (run_expr s true) true, errstr (run_expr s true)))
    ["1 1"; "1 )"; "1 + 2 * * (3 + 4 5)"]
  = [(Some 1%Z, Some "at 1:3: expected end of file (skipped 1 token)");
     (Some 1%Z, Some "at 1:3: expected end of file (skipped 1 token)");
     (Some 15%Z, Some "at 1:9: expected '(' (skipped 2 tokens), at 1:18: expected ')' (skipped 1 token)")].
Proof. vm_compute. reflexivity. Qed.
(** README.md:83-101 *)
Example readme_linecol :
  errstr (run_expr ("1 +" +++ String (ascii_of_N 10) ("2 * * (" +++ String (ascii_of_N 10) "3 + 4 5)")) true)
  = Some "at 2:5: expected '(' (skipped 2 tokens), at 3:7: expected ')' (skipped 1 token)".
Proof. vm_compute. reflexivity. Qed.

(** ** tests/parsers/json.py and tests/test_json.py (subset of the tokens:
    punctuation, integers without sign, strings without escapes, blanks) *)
Inductive json :=
| JInt (z : Z) | JStr (s : string) | JObj (l : list (string * json)) | JList (l : list json).
Definition VJ : nat -> Type := fun _ => json.
Definition J := gram token VJ.
Definition is_punct (x : char) : bool := existsb (N.eqb x) (chars "{}:,[]").
Definition json_spec : lexspec := fun src pos =>
  match nth_error src pos with
  | None => None
  | Some x =>
      if isspace x then Some (pos + span isspace (skipn pos src), None)
      else if is_punct x then Some (pos + 1, Some ("punct", [x]))
      else if isdigit x then
        let k := span isdigit (skipn pos src) in
        Some (pos + k, Some ("integer", slice src pos (pos + k)))
      else if N.eqb x 34 then
        let k := span isalpha (skipn (S pos) src) in
        Some (pos + k + 2, Some ("string", slice src (pos + 1) (pos + 1 + k)))
      else Some (pos + 1, Some ("_", [x]))
  end.
Definition L0 := Loc 0 0 0.
Definition punct (x : string) : J token :=
  GSym token_eqb (Token "punct" (chars x) L0 L0) (repr_s x).
Definition jstring : J string := GFmap (token_p "string") (fun t => Ret (unchars (tk_value t))).
Definition jint : J json := GFmap (token_p "integer") (fun t => Ret (JInt (int_of 0 (tk_value t)))).
Definition jstr : J json := GFmap jstring (fun s => Ret (JStr s)).
Definition qa : string := let q := String (ascii_of_N 34) "" in "'" +++ q +++ "a" +++ q +++ "'".
Definition json_dict : J json :=
  GLabel (between (punct "{") (punct "}")
    (GFmap (sep_by (seq (seql (GRecoverWith jstring "a" qa) (punct ":")) (GDelay 0)) (punct ","))
       (fun l => Ret (JObj l)))) "object".
Definition json_list : J json :=
  GLabel (between (punct "[") (punct "]")
    (GFmap (sep_by (GDelay 0) (punct ",")) (fun l => Ret (JList l)))) "list".
Definition json_value : J json :=
  GLabel (GAlt (GAlt (GRecoverWith (GAlt jint jstr) (JInt 1) "1") (GRecover json_dict))
            (GRecover json_list)) "value".
Definition jsonE : env token VJ := fun _ => json_value.
Definition json_parser : J json := seql (GDelay 0) GEof.

Fixpoint subst_quote (s : string) : string :=  (* ` stands for a double quote *)
  match s with
  | EmptyString => EmptyString
  | String x s' => String (if Ascii.eqb x "`" then ascii_of_N 34 else x) (subst_quote s')
  end.
Definition run_json (s : string) (rec : bool) : option (option json * option string) :=
  match split_tokens 100 (chars (subst_quote s)) json_spec with
  | Ret (LexOk toks) =>
      match lexer_parse jsonE 100 json_parser toks rec with
      | Ret r =>
          Some (match unwrap r true with Returns v => Some v | _ => None end,
                match unwrap r false with Raises e => Some (parse_error_str e) | _ => None end)
      | _ => None
      end
  | _ => None
  end.

Example test_json_positive :
  map (fun s => run_json s false) ["1"; "12"; "[1, [2, 3]]"; "{}"; "{`nested`: {`x`: 5}}"]
  = map (fun v => Some (Some v, None))
      [JInt 1; JInt 12; JList [JInt 1; JList [JInt 2; JInt 3]]; JObj [];
       JObj [("nested", JObj [("x", JInt 5)])]].
Proof. vm_compute. reflexivity. Qed.

Example test_json_negative :
  map (fun s => option_map snd (run_json s false))
    [""; "1 1"; "{"; "{`key`"; "{`key`:"; "{`key`: 0"; "{`key`: 0,"; "["; "[0"; "[0,"]
  = map (fun s => Some (Some s))
    ["at 1:1: expected value"; "at 1:3: expected end of file";
     "at 1:2: expected string or '}'"; "at 1:7: expected ':'"; "at 1:8: expected value";
     "at 1:10: expected ',' or '}'"; "at 1:11: expected string";
     "at 1:2: expected value or ']'"; "at 1:3: expected ',' or ']'"; "at 1:4: expected value"].
Proof. vm_compute. reflexivity. Qed.

Example test_json_recovery :
  map (fun s => run_json s true)
    ["1 1"; "{"; "[1 2]"; "[1, , 2]"; "[1, [{, 2]"; "[1, }, 2]"; "{`key`: }"; "{`key`: ]";
     "{`key`: 2]"; "{`key`: 0,"; "{`key`: 0, ]"; "{`key`: @}"; "{`a`, `b`, `c`, `d`}"]
  = map (fun '(v, m) => Some (Some v, Some (subst_quote m)))
    [(JInt 1, "at 1:3: expected end of file (skipped 1 token)");
     (JObj [], "at 1:2: expected string or '}' (inserted '}')");
     (JList [JInt 1], "at 1:4: expected ',' or ']' (skipped 1 token)");
     (JList [JInt 1; JInt 1; JInt 2], "at 1:5: expected value (inserted 1)");
     (JList [JInt 1; JList [JObj []; JInt 2]],
      "at 1:7: expected string or '}' (inserted '}'), at 1:11: expected ',' or ']' (inserted ']')");
     (JList [JInt 1; JObj []; JInt 2], "at 1:5: expected value (inserted '{')");
     (JObj [("key", JInt 1)], "at 1:9: expected value (inserted 1)");
     (JObj [("key", JList [])],
      "at 1:9: expected value (inserted '['), at 1:10: expected ',' or '}' (inserted '}')");
     (JObj [("key", JInt 2)],
      "at 1:10: expected ',' or '}' (inserted '}'), at 1:10: expected end of file (skipped 1 token)");
     (JObj [("key", JInt 0); ("a", JInt 1)],
      "at 1:11: expected string (inserted '`a`'), at 1:11: expected ':' (inserted ':'), at 1:11: expected value (inserted 1), at 1:11: expected ',' or '}' (inserted '}')");
     (JObj [("key", JInt 0); ("a", JList [])],
      "at 1:12: expected string (inserted '`a`'), at 1:12: expected ':' (inserted ':'), at 1:12: expected value (inserted '['), at 1:13: expected ',' or '}' (inserted '}')");
     (JObj [("key", JInt 1)],
      "at 1:9: expected value (inserted 1), at 1:9: expected ',' or '}' (skipped 1 token)");
     (JObj [("a", JStr "b"); ("c", JStr "d")],
      "at 1:5: expected ':' (inserted ':'), at 1:5: expected value (skipped 1 token), at 1:15: expected ':' (inserted ':'), at 1:15: expected value (skipped 1 token)")].
Proof. vm_compute. reflexivity. Qed.

(** ** docs/source/pages/tutorial.rst *)
Definition VL : nat -> Type := fun _ => unit.
Definition tdigit : gram char VL char := GLabel (GSatisfy (fun x => Ret (isdigit x))) "digit".
Definition tspaces : gram char VL (list char) := GMany (GSatisfy (fun x => Ret (isspace x))).
Definition tnumber : gram char VL Z :=
  seql (GLabel (GFmap (seq tdigit (GMany tdigit)) (fun v => Ret (int_of 0 (fst v :: snd v)))) "number") tspaces.
Definition tcomma := seql (sym (V:=VL) N.eqb repr_c 44%N None) tspaces.
Definition tlist : gram char VL (list Z) :=
  seql (seqr tspaces (sep_by (recover_with str_of_Z tnumber 0%Z None) tcomma)) GEof.
Definition trun (s : string) := parse (fun _ => GUndef) 100 tlist (chars s) true 5 default_get_loc default_fmt_loc.
Example tutorial :
  val (trun "1,") true = Some [1; 0]%Z /\ val (trun "1,,,2 3") true = Some [1; 0; 0; 2]%Z /\
  errstr (trun "1,,,2 3") = Some "at 2: expected number (inserted 0), at 3: expected number (inserted 0), at 6: expected ',' or end of file (skipped 1 token)".
Proof. vm_compute. repeat split. Qed.
