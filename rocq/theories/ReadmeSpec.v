(** Arithmetic expressions as text, and their values.  Independent of parsers:
    a grammar of texts with the usual precedence, operators associating to the
    left, and white space allowed after every token. *)
From Verif Require Import Readme.
Local Open Scope N_scope.

Section Spec.
Variable space digit : char -> bool.
Variable dval : char -> Z.

Definition blank (w : list char) : Prop := Forall (fun c => space c = true) w.
(** digits, most significant first *)
Inductive numeral : list char -> Z -> Prop :=
| nu_one c : digit c = true -> numeral [c] (dval c)
| nu_more x z c : numeral x z -> digit c = true -> numeral (x ++ [c]) (10 * z + dval c)%Z.

Inductive is_sum : list char -> Z -> Prop :=
| su_term t a : is_term t a -> is_sum t a
| su_plus s a w t b : is_sum s a -> blank w -> is_term t b -> is_sum (s ++ 43 :: w ++ t) (a + b)%Z
| su_minus s a w t b : is_sum s a -> blank w -> is_term t b -> is_sum (s ++ 45 :: w ++ t) (a - b)%Z
with is_term : list char -> Z -> Prop :=
| te_atom x a : is_atom x a -> is_term x a
| te_times t a w x b : is_term t a -> blank w -> is_atom x b -> is_term (t ++ 42 :: w ++ x) (a * b)%Z
with is_atom : list char -> Z -> Prop :=
| at_number x a w : numeral x a -> blank w -> is_atom (x ++ w) a
| at_paren w s a w' : blank w -> is_sum s a -> blank w' -> is_atom (40 :: w ++ s ++ 41 :: w') a.

(** Facts about the characters: digits are not white space, and the five
    special characters are neither. *)
Record charset : Prop := {
  cs_digit : forall c, digit c = true -> space c = false;
  cs_special : forall c, In c [40; 41; 42; 43; 45] -> digit c = false /\ space c = false;
  (** there are digits *)
  cs_some : exists c, digit c = true }.
End Spec.
