(** Specification of pattern texts: how patterns are written, as a grammar (see
    the documentation of Python's module [re], section "Regular Expression
    Syntax").  Characters are given by their codes: 40 ( 41 ) 42 * 43 + 45 -
    46 . 58 : 60 < 62 > 63 ? 80 P 91 [ 92 \ 93 ] 94 ^ 123 { 124 | 125 }. *)
From Verif Require Export RegexSpec.
From Verif Require Import Json.
Local Open Scope N_scope.

(** white space, ignored between the parts of a pattern if VERBOSE is set *)
Definition blank (c : char) : Prop := c = 32 \/ 9 <= c <= 13.
Definition blanks (verbose : bool) (w : list char) : Prop := w = [] \/ (verbose = true /\ Forall blank w).

(** a hexadecimal digit, a hexadecimal number; a decimal number *)
Inductive hex : char -> N -> Prop :=
| hex_digit c : 48 <= c <= 57 -> hex c (c - 48)
| hex_upper c : 65 <= c <= 70 -> hex c (c - 65 + 10)
| hex_lower c : 97 <= c <= 102 -> hex c (c - 97 + 10).
Inductive hex_number : list char -> N -> Prop :=
| hn_nil : hex_number [] 0
| hn_digit w n c d : hex_number w n -> hex c d -> hex_number (w ++ [c]) (16 * n + d).
Inductive dec_number : list char -> N -> Prop :=
| dn_nil : dec_number [] 0
| dn_digit w n c : dec_number w n -> 48 <= c <= 57 -> dec_number (w ++ [c]) (10 * n + (c - 48)).

(** what may follow a backslash, and what it stands for *)
Definition ascii_alnum (c : char) : Prop := 48 <= c <= 57 \/ 65 <= c <= 90 \/ 97 <= c <= 122.
Inductive escape : list char -> item -> Prop :=
| es_n : escape [110] (IChar 10)
| es_r : escape [114] (IChar 13)
| es_t : escape [116] (IChar 9)
| es_s : escape [115] ISpace
| es_d : escape [100] IDigit
| es_x w n : List.length w = 2%nat -> hex_number w n -> escape (120 :: w) (IChar n)
| es_u w n : List.length w = 4%nat -> hex_number w n -> escape (117 :: w) (IChar n)
| es_U w n : List.length w = 8%nat -> hex_number w n -> n < 17 * 65536 -> escape (85 :: w) (IChar n)
| es_other c : c < 128 -> ~ ascii_alnum c -> escape [c] (IChar c).

(** the inside of brackets, up to and with the closing one *)
Inductive element : list char -> item -> Prop :=
| el_escape w i : escape w i -> element (92 :: w) i
| el_char c : c <> 92 -> c <> 93 -> element [c] (IChar c).
Inductive in_brackets : list char -> list item -> Prop :=
| ib_end : in_brackets [93] []
| ib_single w i w' l : element w i -> in_brackets w' l ->
    (* not the beginning of a range: a minus is only followed by the bracket *)
    (forall c w'', w' = 45 :: c :: w'' -> c = 93) ->
    in_brackets (w ++ w') (i :: l)
| ib_range wa a wb b w l : element wa (IChar a) -> element wb (IChar b) -> a <= b -> in_brackets w l ->
    in_brackets (wa ++ [45] ++ wb ++ w) (IRange a b :: l).

(** [r] once, twice, ... *)
Fixpoint copies (n : nat) (r : regex) : regex :=
  match n with O => REps | S O => r | S n => RCat r (copies n r) end.
(** a repetition after [r]: none, *, +, ?, {n} *)
Inductive repeated (r : regex) : list char -> regex -> Prop :=
| rp_once : repeated r [] r
| rp_star : (forall sp dg, ~ matches sp dg r []) -> repeated r [42] (RStar r)
| rp_plus : (forall sp dg, ~ matches sp dg r []) -> repeated r [43] (RCat r (RStar r))
| rp_opt : repeated r [63] (RAlt r REps)
| rp_count w n : w <> [] -> dec_number w n -> n <> 0 -> repeated r (123 :: w ++ [125]) (copies (N.to_nat n) r).

(** characters that stand for themselves: all but ( ) * + . ? [ \ ^ { | $, and
    blanks and # if VERBOSE is set *)
Definition ordinary (verbose : bool) (c : char) : Prop :=
  ~ In c [40; 41; 42; 43; 46; 63; 91; 92; 94; 123; 124; 36] /\ (verbose = true -> c <> 35 /\ ~ blank c).
(** group names *)
Definition name_text (name : string) (w : list char) : Prop :=
  w = ascii_chars name /\
  exists c w', w = c :: w' /\ (ascii_alnum c \/ c = 95) /\ ~ (48 <= c <= 57) /\
    Forall (fun c => ascii_alnum c \/ c = 95) w'.
(** a sequence with a first part *)
Definition followed (q r : regex) : regex := match r with REps => q | _ => RCat q r end.

(** [choice v k w r k']: [w] is the text of the pattern [r]; its groups have the
    numbers from [k] to [k' - 1], by their opening brackets *)
Inductive choice (v : bool) : nat -> list char -> regex -> nat -> Prop :=
| ch_one k w r k' : sequence v k w r k' -> choice v k w r k'
| ch_more k w1 r1 k1 w2 r2 k2 :
    sequence v k w1 r1 k1 -> choice v k1 w2 r2 k2 -> choice v k (w1 ++ [124] ++ w2) (RAlt r1 r2) k2
with sequence (v : bool) : nat -> list char -> regex -> nat -> Prop :=
| sq_end k w : blanks v w -> sequence v k w REps k
| sq_more k b1 wa a k1 b2 wq q w r k2 :
    blanks v b1 -> atom v k wa a k1 -> blanks v b2 -> repeated a wq q -> sequence v k1 w r k2 ->
    sequence v k (b1 ++ wa ++ b2 ++ wq ++ w) (followed q r) k2
with atom (v : bool) : nat -> list char -> regex -> nat -> Prop :=
| am_char k c : ordinary v c -> atom v k [c] (RSet false [IChar c]) k
| am_escape k w i : escape w i -> atom v k (92 :: w) (RSet false [i]) k
| am_dot k : atom v k [46] RDot k
| am_class k w l : in_brackets w l -> l <> [] -> hd 0 w <> 94 -> atom v k (91 :: w) (RSet false l) k
| am_negated k w l : in_brackets w l -> l <> [] -> atom v k (91 :: 94 :: w) (RSet true l) k
| am_plain k w r k' : choice v k w r k' -> atom v k ([40; 63; 58] ++ w ++ [41]) r k'
| am_group k w r k' : choice v (S k) w r k' -> hd 0 w <> 63 -> atom v k ([40] ++ w ++ [41]) (RGroup k None r) k'
| am_named k name wn w r k' : name_text name wn -> choice v (S k) w r k' ->
    atom v k ([40; 63; 80; 60] ++ wn ++ [62] ++ w ++ [41]) (RGroup k (Some name) r) k'.

(** the named groups of a pattern: number and name *)
Inductive named_group (k : nat) (name : string) : regex -> Prop :=
| ng_in body r : group_in k (Some name) body r -> named_group k name r.
(** [w] is the text of the pattern [r] *)
Definition pattern_text (verbose : bool) (w : list char) (r : regex) : Prop :=
  (exists k, choice verbose 1 w r k) /\
  forall k1 k2 name, named_group k1 name r -> named_group k2 name r -> k1 = k2.
