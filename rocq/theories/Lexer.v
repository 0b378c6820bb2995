(** Model of src/reparsec/lexer.py *)
From Verif Require Export Api.

(** lexer.py:18-32  Token *)
Record token : Type := Token {
  tk_kind : string;
  tk_value : list char;
  tk_start : loc;
  tk_end : loc
}.

(** equality of tokens: [start] and [end] have compare=False, lexer.py:31-32 *)
Fixpoint chars_eqb (a b : list char) : bool :=
  match a, b with
  | [], [] => true
  | x :: a, y :: b => N.eqb x y && chars_eqb a b
  | _, _ => false
  end.
Definition token_eqb (a b : token) : bool :=
  String.eqb (tk_kind a) (tk_kind b) && chars_eqb (tk_value a) (tk_value b).

(** The compiled lexer specification, an oracle: [spec.match(src, pos=pos)]
    gives None or a match with [match.end()] and, if [match.lastgroup] is not
    None, the pair of [lastgroup] and [match.group(lastgroup)]. *)
Definition lexspec : Type :=
  list char -> nat -> option (nat * option (string * list char)).

(** Result of [split_tokens]: the list, or LexError(loc) raised. *)
Inductive lexed : Type :=
| LexOk (toks : list token)
| LexErr (l : loc).

(** lexer.py:63-70  location of the end of a match starting at [pos] with
    location [l] *)
Definition lex_end_loc (src : list char) (pos e : nat) (l : loc) : loc :=
  let nl := count_nl src pos e in
  if Nat.eqb nl 0 then
    Loc (Z.of_nat e) (loc_line l) (loc_col l + (Z.of_nat e - Z.of_nat pos))
  else
    Loc (Z.of_nat e) (loc_line l + Z.of_nat nl)
      (Z.of_nat e - rfind_nl src pos e - 1).

(** lexer.py:52-77  iter_tokens consumed by [list(...)], lexer.py:101.
    [n] is fuel, [pos], [l] and [acc] the loop state ([line] and [col] always
    equal the fields of [l], [loc]). *)
Fixpoint lex_loop (spec : lexspec) (src : list char) (n pos : nat) (l : loc)
    (acc : list token) : out lexed :=
  match n with
  | O => NoFuel
  | S n' =>
      if Nat.ltb pos (List.length src) then
        match spec src pos with
        | None => Ret (LexErr l)
        | Some (e, group) =>
            let end_loc := lex_end_loc src pos e l in
            let acc :=
              match group with
              | Some (kind, value) => acc ++ [Token kind value l end_loc]
              | None => acc
              end in
            lex_loop spec src n' e end_loc acc
        end
      else Ret (LexOk acc)
  end.

(** lexer.py:80-101  split_tokens *)
Definition split_tokens (n : nat) (src : list char) (spec : lexspec)
    : out lexed :=
  lex_loop spec src n 0 (Loc 0 0 0) [].

(** lexer.py:46-49  LexError.__str__ *)
Definition lex_error_str (l : loc) : string :=
  ("Lexing error at " ++ linecol_fmt l)%string.

(** lexer.py:176-181  _loc_from_stream *)
Definition loc_from_stream (s : list token) (pos : nat) : loc :=
  match nth_error s pos with
  | Some t => tk_start t
  | None =>
      match rev s with
      | t :: _ => tk_end t
      | [] => Loc (Z.of_nat pos) 0 0
      end
  end.

Section LexParsers.
Context {V : nat -> Type}.

(** lexer.py:104-125  token *)
Definition token_p (kind : string) : gram token V token :=
  GLabel (GSatisfy (fun t => Ret (String.eqb (tk_kind t) kind))) kind.

(** lexer.py:128-154  token_ins *)
Definition token_ins (kind : string) (ins_value : list char)
    : gram token V token :=
  GRecoverWithFn (token_p kind)
    (fun s pos =>
       let l := loc_from_stream s pos in Ret (Token kind ins_value l l))
    (fun _ => kind).

(** lexer.py:157-173  parse *)
Definition lexer_get_loc (l : loc) (s : list token) (pos : nat) : loc :=
  loc_from_stream s pos.
Definition lexer_parse {A} (E : env token V) (n : nat) (g : gram token V A)
    (s : list token) (recover : bool) : out (presult token A) :=
  parse E n g s recover 5 lexer_get_loc linecol_fmt.

End LexParsers.
