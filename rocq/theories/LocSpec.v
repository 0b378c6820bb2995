(** Specification of true source locations of a text. *)
From Verif Require Export Spec Lexer.

(** a newline *)
Definition newline (c : char) : bool := N.eqb c 10.
(** length of the longest newline-free prefix *)
Fixpoint line_run (l : list char) : nat :=
  match l with
  | [] => 0
  | x :: l' => if newline x then 0 else S (line_run l')
  end.

(** Line (from 0): number of newlines before position [p].
    Column (from 0): number of characters between the last newline before [p]
    (or the start of the text) and [p]. *)
Definition true_line (s : list char) (p : nat) : nat :=
  List.length (filter newline (firstn p s)).
Definition true_col (s : list char) (p : nat) : nat :=
  line_run (rev (firstn p s)).
Definition true_loc (s : list char) (p : nat) : loc :=
  Loc (Z.of_nat p) (Z.of_nat (true_line s p)) (Z.of_nat (true_col s p)).
