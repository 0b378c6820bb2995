(** Model of the user-facing layer: types.py (ErrorItem, ParseError,
    ResultWrapper), parser.py:21-55 (Parser.parse) and the [parse] wrapper of
    scannerless.py with core/scannerless.py:12-20 (get_loc). *)
From Coq Require Import DecimalString Decimal.
From Verif Require Export Grammar.

(** decimal representation of Python ints, as produced by [str.format] and
    [repr] *)
Definition str_of_Z (z : Z) : string := NilZero.string_of_int (Z.to_int z).
Definition str_of_nat (n : nat) : string := NilZero.string_of_uint (Nat.to_uint n).

(** types.py:19-33  ErrorItem *)
Record erroritem : Type := ErrorItem {
  ei_loc : loc;
  ei_loc_str : string;
  ei_expected : list string;
  ei_op : option rop
}.

(** [', '.join(l)] *)
Fixpoint join (sep : string) (l : list string) : string :=
  match l with
  | [] => ""
  | [x] => x
  | x :: l' => x ++ sep ++ join sep l'
  end%string.

(** types.py:35-58  ErrorItem.msg.  [removelast]/[last] are
    [expected[:-1]]/[expected[-1]]. *)
Definition msg (e : erroritem) : string :=
  let res := ("at " ++ ei_loc_str e ++ ": ")%string in
  let res :=
    match ei_expected e with
    | [] => (res ++ "unexpected input")%string
    | [x] => (res ++ ("expected " ++ x))%string
    | l => (res ++ ("expected " ++ join ", " (removelast l) ++ " or "
                      ++ last l ""))%string
    end in
  match ei_op e with
  | None => res
  | Some op =>
      let repair :=
        match op with
        | Skip count =>
            ("skipped " ++ str_of_nat count ++ " "
               ++ (if Nat.eqb count 1 then "token" else "tokens"))%string
        | Insert label => ("inserted " ++ label)%string
        end in
      (res ++ " (" ++ repair ++ ")")%string
  end.

(** types.py:72-73  ParseError.__str__ *)
Definition parse_error_str (errors : list erroritem) : string :=
  join ", " (map msg errors).

Section Unwrap.
Context {T : Type}.

(** Outcome of [ParseResult.unwrap]: a value or a raised ParseError. *)
Inductive unwrapped (A : Type) : Type :=
| Returns (v : A)
| Raises (errors : list erroritem).
Arguments Returns {A}. Arguments Raises {A}.

(** types.py:101-104  ResultWrapper *)
Record presult (A : Type) : Type := ResultWrapper {
  pr_result : res T A;
  pr_fmt : loc -> string
}.
Arguments ResultWrapper {A}. Arguments pr_result {A}. Arguments pr_fmt {A}.

(** types.py:106-107  ResultWrapper.fmap *)
Definition presult_fmap {A B} (f : A -> out B) (r : presult A)
    : out (presult B) :=
  r' <- res_fmap f (pr_result r) ;; Ret (ResultWrapper r' (pr_fmt r)).

(** types.py:132  comparison of the keys (cost, -pos, prio is None) *)
Definition key_lt {A} (a b : repair T A) : bool :=
  let an := match r_prio a with None => true | Some _ => false end in
  let bn := match r_prio b with None => true | Some _ => false end in
  Nat.ltb (r_cost a) (r_cost b)
  || (Nat.eqb (r_cost a) (r_cost b)
      && (Nat.ltb (r_pos b) (r_pos a)
          || (Nat.eqb (r_pos a) (r_pos b) && (negb an && bn)))).

(** Python's [min(l, key=...)] on the non-empty list [x :: l]: the first
    element whose key is minimal *)
Fixpoint py_min {A} (best : repair T A) (l : list (repair T A)) : repair T A :=
  match l with
  | [] => best
  | x :: l' => py_min (if key_lt x best then x else best) l'
  end.

(** types.py:136-141 *)
Definition item_of_op (fmt : loc -> string) (i : opitem) : erroritem :=
  ErrorItem (op_loc i) (fmt (op_loc i)) (op_exp i) (Some (op_op i)).

(** types.py:109-142  ResultWrapper.unwrap *)
Definition unwrap {A} (r : presult A) (recover : bool) : unwrapped A :=
  match pr_result r with
  | ROk o => Returns (ok_val o)
  | RErr e =>
      Raises [ErrorItem (er_loc e) (pr_fmt r (er_loc e)) (er_exp e) None]
  | RRec rc =>
      match rc_reps rc with
      | [] =>
          Raises [ErrorItem (rc_loc rc) (pr_fmt r (rc_loc rc)) (rc_exp rc) None]
      | x :: l =>
          let rep := py_min x l in
          if recover then Returns (r_val rep)
          else Raises (map (item_of_op (pr_fmt r)) (r_ops rep))
      end
  end.

(** parser.py:21-22  default get_loc; 25-26 default fmt_loc *)
Definition default_get_loc (l : loc) (s : list T) (pos : nat) : loc :=
  Loc (Z.of_nat pos) 0 0.
Definition default_fmt_loc (l : loc) : string := str_of_Z (loc_pos l).

(** parser.py:48  initial context *)
Definition init_ctx (get : loc -> list T -> nat -> loc) : ctx T :=
  Ctx 0 (Loc 0 0 0) get.

(** parser.py:30-55  Parser.parse; [n] is fuel *)
Definition parse {V A} (E : env T V) (n : nat) (g : gram T V A) (s : list T)
    (recover : bool) (max_insertions : Z)
    (get : loc -> list T -> nat -> loc) (fmt : loc -> string)
    : out (presult A) :=
  let c := init_ctx get in
  result <-
    (if recover then full E n g s 0 c max_insertions (Some max_insertions)
     else omap sres_res (fast E n g s 0 c)) ;;
  Ret (ResultWrapper result fmt).

End Unwrap.
Arguments unwrapped A : clear implicits.
Arguments Returns {A}. Arguments Raises {A}.
Arguments presult T A : clear implicits.
Arguments ResultWrapper {T A}. Arguments pr_result {T A}. Arguments pr_fmt {T A}.

(** ** scannerless.parse *)

(** Characters are Unicode code points. *)
Definition char : Type := N.
Definition isnl (ch : char) : bool := N.eqb ch 10.

(** s[a:b] *)
Definition slice {X} (s : list X) (a b : nat) : list X :=
  firstn (b - a) (skipn a s).

(** [s.count("\n", a, b)] *)
Definition count_nl (s : list char) (a b : nat) : nat :=
  List.length (filter isnl (slice s a b)).

(** [s.rfind("\n", a, b)]: highest index of a newline in [a, b), or -1 *)
Fixpoint rfind_from (l : list char) (i acc : Z) : Z :=
  match l with
  | [] => acc
  | x :: l' => rfind_from l' (i + 1)%Z (if isnl x then i else acc)
  end.
Definition rfind_nl (s : list char) (a b : nat) : Z :=
  rfind_from (slice s a b) (Z.of_nat a) (-1).

(** core/scannerless.py:12-20  get_loc.  [start] is never negative, so it is
    used as an index through [Z.to_nat]. *)
Definition scannerless_get_loc (l : loc) (s : list char) (pos : nat) : loc :=
  let start := Z.to_nat (loc_pos l) in
  let nlc := count_nl s start pos in
  if Nat.eqb nlc 0 then
    Loc (Z.of_nat pos) (loc_line l) (loc_col l + (Z.of_nat pos - loc_pos l))
  else
    Loc (Z.of_nat pos) (loc_line l + Z.of_nat nlc)
      (Z.of_nat pos - rfind_nl s start pos - 1).

(** scannerless.py:88, lexer.py:172  "{}:{}".format(l.line + 1, l.col + 1) *)
Definition linecol_fmt (l : loc) : string :=
  (str_of_Z (loc_line l + 1) ++ ":" ++ str_of_Z (loc_col l + 1))%string.

(** scannerless.py:60-89  parse (max_insertions is the default 5) *)
Definition scannerless_parse {V A} (E : env char V) (n : nat)
    (g : gram char V A) (s : list char) (recover : bool)
    : out (presult char A) :=
  parse E n g s recover 5 scannerless_get_loc linecol_fmt.
