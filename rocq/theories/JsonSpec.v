(** Which sequences of tokens are JSON texts, and their values: the grammar of
    RFC 8259 over tokens.  Only the type of values is taken from the model. *)
From Verif Require Import Json.
From Coq Require Import ListDec.

Section JsonSpec.
Context {F : Type}.
Variable unescape : list char -> list char.
Variable int_of : list char -> Z.
Variable float_of : list char -> F.

Definition key_eq_dec : forall a b : list char, {a = b} + {a <> b} := list_eq_dec N.eq_dec.

(** [d] is the dict with the items [kvs]: the value of a key is the last one
    given, the keys are in the order in which they were first given *)
Definition is_dict {X} (kvs d : list (list char * X)) : Prop :=
  map fst d = rev (nodup key_eq_dec (rev (map fst kvs))) /\
  forall k v, In (k, v) d <->
    exists before after, kvs = before ++ (k, v) :: after /\ ~ In k (map fst after).

(** the token is the punctuation character [a] *)
Definition is_punct (a : ascii) (t : token) : Prop :=
  tk_kind t = "punct"%string /\ tk_value t = [N_of_ascii a].
(** the token is of a kind *)
Definition is_kind (k : string) (t : token) : Prop := tk_kind t = k.

Local Open Scope char_scope.
Inductive is_scalar (t : token) : json F -> Prop :=
| is_str : is_kind "string"%string t -> is_scalar t (JStr (unescape (tk_value t)))
| is_int : is_kind "integer"%string t -> is_scalar t (JInt (int_of (tk_value t)))
| is_float : is_kind "float"%string t -> is_scalar t (JFloat (float_of (tk_value t)))
| is_true : is_kind "bool"%string t -> tk_value t = ascii_chars "true" -> is_scalar t (JBool true)
| is_false : is_kind "bool"%string t -> tk_value t <> ascii_chars "true" -> is_scalar t (JBool false)
| is_null : is_kind "null"%string t -> is_scalar t JNull.

(** value = scalar | [ elements ] | { members } *)
Inductive is_json : list token -> json F -> Prop :=
| json_scalar t v : is_scalar t v -> is_json [t] v
| json_list_empty t t' :
    is_punct "[" t -> is_punct "]" t' -> is_json [t; t'] (JList [])
| json_list_some t w vs t' :
    is_punct "[" t -> elements w vs -> is_punct "]" t' -> is_json (t :: w ++ [t']) (JList vs)
| json_dict_empty t t' :
    is_punct "{" t -> is_punct "}" t' -> is_json [t; t'] (JDict [])
| json_dict_some t w kvs d t' :
    is_punct "{" t -> members w kvs -> is_punct "}" t' -> is_dict kvs d ->
    is_json (t :: w ++ [t']) (JDict d)
(** one or more values separated by commas *)
with elements : list token -> list (json F) -> Prop :=
| el_one w v : is_json w v -> elements w [v]
| el_more w v c w' vs :
    is_json w v -> is_punct "," c -> elements w' vs -> elements (w ++ c :: w') (v :: vs)
(** one or more  key : value  separated by commas *)
with members : list token -> list (list char * json F) -> Prop :=
| me_one k c w v :
    is_kind "string"%string k -> is_punct ":" c -> is_json w v ->
    members (k :: c :: w) [(unescape (tk_value k), v)]
| me_more k c w v c' w' kvs :
    is_kind "string"%string k -> is_punct ":" c -> is_json w v -> is_punct "," c' -> members w' kvs ->
    members (k :: c :: w ++ c' :: w') ((unescape (tk_value k), v) :: kvs).
End JsonSpec.
