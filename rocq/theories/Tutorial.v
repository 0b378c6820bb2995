(** Model of the parser that the tutorial builds (docs/source/pages/tutorial.rst,
    final form at lines 224-244): lists of numbers separated by commas, without a
    lexer, with a placeholder for missing numbers. *)
From Coq Require Export List.
Import ListNotations.
From Verif Require Export Api.
Local Open Scope N_scope.

Section Tutorial.
(** [str.isdigit] and [str.isspace] of a character; its value for [int], if it is
    a decimal digit ([str.isdigit] is also true of some others, e.g. superscripts) *)
Variable isdigit isspace : char -> bool.
Variable decimal : char -> option Z.

Definition tut_V (d : nat) : Type := unit.
Notation tgram := (gram char tut_V).

(** the builtin [int] on a text of digits: ValueError unless all are decimal *)
Definition int_step (acc : out Z) (c : char) : out Z :=
  a <- acc ;; match decimal c with Some d => Ret (10 * a + d)%Z | None => Raise (UserExn "ValueError") end.
Definition int_text (x : list char) : out Z := fold_left int_step x (Ret 0%Z).

(** tutorial.rst:231  spaces *)
Definition tut_spaces : tgram (list char) := GMany (GSatisfy (fun c => Ret (isspace c))).
(** tutorial.rst:233-234  digit, digits *)
Definition tut_digit : tgram char := GLabel (GSatisfy (fun c => Ret (isdigit c))) "digit".
Definition tut_digits : tgram (char * list char) := seq tut_digit (GMany tut_digit).
(** tutorial.rst:236-238  number; the callback joins the digits and calls [int] *)
Definition tut_number : tgram Z :=
  seql (GLabel (GFmap tut_digits (fun v => int_text (fst v :: snd v))) "number") tut_spaces.
(** tutorial.rst:240  comma: [sym(",")], shown as its [repr] *)
Definition tut_comma : tgram char := seql (GSym N.eqb 44 "','"%string) tut_spaces.
(** tutorial.rst:242  list_parser; the label of the placeholder is [repr(0)] *)
Definition tut_item : tgram Z := GRecoverWith tut_number 0%Z "0"%string.
Definition list_parser : tgram (list Z) :=
  seql (seqr tut_spaces (sep_by tut_item tut_comma)) GEof.
Definition tut_E : env char tut_V := fun _ => GUndef.
(** tutorial.rst:244-245  parse_list *)
Definition parse_list (n : nat) (src : list char) : out (unwrapped (list Z)) :=
  r <- scannerless_parse tut_E n list_parser src true ;; Ret (unwrap r false).
End Tutorial.
