(** JSON as text: tokens are written as RFC 8259 says, with white space around
    them.  Two differences of json.py are kept: a string has at least one
    character, and DEL and everything above it may occur in strings.

    Characters are code points. *)
From Verif Require Import Json JsonSpec.
Local Open Scope N_scope.

Definition white (c : char) : Prop := c = 32 \/ c = 10 \/ c = 13 \/ c = 9.
Definition digit (c : char) : Prop := 48 <= c <= 57.
Definition hexdigit (c : char) : Prop := digit c \/ 65 <= c <= 70 \/ 97 <= c <= 102.
Definition hexvalue (c : char) (n : N) : Prop :=
  (digit c /\ c = 48 + n) \/ (10 <= n /\ (65 <= c <= 70 /\ c = 55 + n \/ 97 <= c <= 102 /\ c = 87 + n)).

(** the digits [ds] are the number [n] in base ten, most significant first *)
Inductive decimal : list char -> N -> Prop :=
| de_one d : digit d -> decimal [d] (d - 48)
| de_more ds n d : decimal ds n -> digit d -> decimal (ds ++ [d]) (10 * n + (d - 48)).
Definition is_digits (ds : list char) : Prop := exists n, decimal ds n.
(** no leading zero *)
Definition plain_decimal (ds : list char) (n : N) : Prop :=
  decimal ds n /\ (ds = [48] \/ exists d ds', ds = d :: ds' /\ d <> 48).
(** an optional minus sign (45) and a number *)
Inductive is_integer : list char -> Z -> Prop :=
| int_plus ds n : plain_decimal ds n -> is_integer ds (Z.of_N n)
| int_minus ds n : plain_decimal ds n -> is_integer (45 :: ds) (- Z.of_N n).
(** integer, fraction and exponent, the latter optional but not both absent *)
Inductive is_fraction : list char -> Prop :=
| fr_intro ds : is_digits ds -> is_fraction (46 :: ds).
Inductive is_exponent : list char -> Prop :=
| ex_plain e ds : e = 101 \/ e = 69 -> is_digits ds -> is_exponent (e :: ds)
| ex_sign e g ds : e = 101 \/ e = 69 -> g = 43 \/ g = 45 -> is_digits ds -> is_exponent (e :: g :: ds).
Inductive is_floating : list char -> Prop :=
| fl_frac i z f : is_integer i z -> is_fraction f -> is_floating (i ++ f)
| fl_exp i z e : is_integer i z -> is_exponent e -> is_floating (i ++ e)
| fl_both i z f e : is_integer i z -> is_fraction f -> is_exponent e -> is_floating (i ++ f ++ e).

(** escape letters and what they stand for: a quote, backslash, slash, and
    b, f, n, r, t *)
Inductive escape : char -> char -> Prop :=
| es_quote : escape 34 34 | es_back : escape 92 92 | es_slash : escape 47 47
| es_b : escape 98 8 | es_f : escape 102 12 | es_n : escape 110 10
| es_r : escape 114 13 | es_t : escape 116 9.
(** the inside of a string literal, and the string *)
Inductive is_body : list char -> list char -> Prop :=
| bo_nil : is_body [] []
| bo_char c w s : 32 <= c <= 1114111 -> c <> 34 -> c <> 92 -> is_body w s -> is_body (c :: w) (c :: s)
| bo_escape e c w s : escape e c -> is_body w s -> is_body (92 :: e :: w) (c :: s)
| bo_unicode a b c d na nb nc nd w s :
    hexvalue a na -> hexvalue b nb -> hexvalue c nc -> hexvalue d nd -> is_body w s ->
    is_body (92 :: 117 :: a :: b :: c :: d :: w) (na * 4096 + nb * 256 + nc * 16 + nd :: s).

(** how a token is written *)
Inductive spelling (t : token) : list char -> Prop :=
| sp_punct a : In a ["{"; "}"; "["; "]"; ":"; ","]%char -> is_punct a t -> spelling t [N_of_ascii a]
| sp_true : is_kind "bool" t -> tk_value t = ascii_chars "true" -> spelling t (ascii_chars "true")
| sp_false : is_kind "bool" t -> tk_value t = ascii_chars "false" -> spelling t (ascii_chars "false")
| sp_null : is_kind "null" t -> tk_value t = ascii_chars "null" -> spelling t (ascii_chars "null")
| sp_integer z : is_kind "integer" t -> is_integer (tk_value t) z -> spelling t (tk_value t)
| sp_float : is_kind "float" t -> is_floating (tk_value t) -> spelling t (tk_value t)
| sp_string s : is_kind "string" t -> is_body (tk_value t) s -> s <> [] ->
    spelling t (34 :: tk_value t ++ [34]).
(** tokens with white space around them *)
Inductive written : list char -> list token -> Prop :=
| wr_end w : Forall white w -> written w []
| wr_token w t x rest toks :
    Forall white w -> spelling t x -> written rest toks -> written (w ++ x ++ rest) (t :: toks).

(** The values that texts have: strings are not empty and made of code points,
    floats are values of float texts, a key occurs once. *)
Definition good_string (s : list char) : Prop := s <> [] /\ Forall (fun c => c <= 1114111) s.
Inductive loadable {F} (float_of : list char -> F) : json F -> Prop :=
| lo_str s : good_string s -> loadable float_of (JStr s)
| lo_int z : loadable float_of (JInt z)
| lo_float x : is_floating x -> loadable float_of (JFloat (float_of x))
| lo_bool b : loadable float_of (JBool b)
| lo_null : loadable float_of JNull
| lo_list vs : Forall (loadable float_of) vs -> loadable float_of (JList vs)
| lo_dict d : NoDup (map fst d) -> Forall good_string (map fst d) -> Forall (loadable float_of) (map snd d) ->
    loadable float_of (JDict d).
