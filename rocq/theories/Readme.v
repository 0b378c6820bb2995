(** Model of tests/parsers/expr.py, the arithmetic parser of README.md:24-58:
    numbers, [+], [-], [*] and parentheses, evaluated while parsing. *)
From Coq Require Export List.
Import ListNotations.
From Verif Require Export Api.
Local Open Scope N_scope.

(** Regular expressions made of one character class: [f] says which characters
    are in the class.  The match is the longest run. *)
Fixpoint run_len (f : char -> bool) (s : list char) : nat :=
  match s with
  | c :: s => if f c then S (run_len f s) else O
  | [] => O
  end.
Definition re_star (f : char -> bool) (s : list char) (pos : nat) : option (nat * option (list char)) :=
  let n := run_len f (skipn pos s) in Some ((pos + n)%nat, Some (firstn n (skipn pos s))).
Definition re_plus (f : char -> bool) (s : list char) (pos : nat) : option (nat * option (list char)) :=
  match run_len f (skipn pos s) with
  | O => None
  | n => Some ((pos + n)%nat, Some (firstn n (skipn pos s)))
  end.
Definition re_class (f : char -> bool) (s : list char) (pos : nat) : option (nat * option (list char)) :=
  match skipn pos s with
  | c :: _ => if f c then Some ((pos + 1)%nat, Some [c]) else None
  | [] => None
  end.

Section Readme.
(** what [\s] and [\d] match, and the value of a digit for [int] *)
Variable space digit : char -> bool.
Variable dval : char -> Z.

Definition expr_V (d : nat) : Type := Z.
Notation egram := (gram char expr_V).

(** the builtin [int] on a text of digits *)
Definition int_of (x : list char) : Z := fold_left (fun a c => (10 * a + dval c)%Z) x 0%Z.

(** expr.py:8-13  [op_action]: a dict lookup, KeyError on other texts *)
Definition op_action (op : list char) : out (Z -> Z -> out Z) :=
  match op with
  | [43] => Ret (fun a b => Ret (a + b)%Z)
  | [45] => Ret (fun a b => Ret (a - b)%Z)
  | [42] => Ret (fun a b => Ret (a * b)%Z)
  | _ => Raise (UserExn "KeyError")
  end.
(** expr.py:16-21; [42] is a star, [43] plus, [45] minus, [40] and [41] the parentheses *)
Definition spaces : egram (list char) := GRegexp (re_star space).
Definition number : egram Z :=
  seql (GFmap (GRegexp (re_plus digit)) (fun x => Ret (int_of x))) spaces.
Definition mul_op : egram (Z -> Z -> out Z) :=
  seql (GFmap (GRegexp (re_class (fun c => N.eqb c 42))) op_action) spaces.
Definition add_op : egram (Z -> Z -> out Z) :=
  seql (GFmap (GRegexp (re_class (fun c => N.eqb c 45 || N.eqb c 43))) op_action) spaces.
Definition l_paren : egram (list char) := seql (GLiteral N.eqb [40] "'('"%string) spaces.
Definition r_paren : egram (list char) := seql (GLiteral N.eqb [41] "')'"%string) spaces.
(** expr.py:23-31 *)
Definition expr : egram Z := GDelay 0.
Definition atom : egram Z := GAlt number (between l_paren r_paren expr).
Definition term : egram Z := chainl1 atom mul_op.
Definition sum : egram Z := chainl1 term add_op.
Definition expr_E : env char expr_V := fun _ => sum.
(** expr.py:33 *)
Definition expr_parser : egram Z := seql expr GEof.
(** expr.py:36-37  [eval] *)
Definition eval (n : nat) (src : list char) : out (unwrapped Z) :=
  r <- scannerless_parse expr_E n expr_parser src false ;; Ret (unwrap r false).
End Readme.

(** the ASCII part of [\s] and [\d] *)
Definition ascii_space (c : char) : bool := (N.leb 9 c && N.leb c 13) || (N.leb 28 c && N.leb c 32).
Definition ascii_digit (c : char) : bool := N.leb 48 c && N.leb c 57.
Definition ascii_dval (c : char) : Z := (Z.of_N c - 48)%Z.
