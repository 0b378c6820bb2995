(** Specification for C76, JSON: what the beginning of a JSON text tells about
    its value.

    [begins w P]: the tokens [w] are the beginning of a value, which is one for
    which [P] holds: elements of lists and members of dicts that are complete
    are known, and of the last one what has been seen of it. *)
From Verif Require Export Json JsonSpec.

Section JsonPart.
Context {F : Type}.
Variable unescape : list char -> list char.
Variable int_of : list char -> Z.
Variable float_of : list char -> F.
Notation is_json := (is_json unescape int_of float_of).
Notation elements := (elements unescape int_of float_of).
Notation members := (members unescape int_of float_of).
Local Open Scope char_scope.

Inductive begins : list token -> (json F -> Prop) -> Prop :=
| bg_nothing : begins [] (fun _ => True)
| bg_value w v : is_json w v -> begins w (fun u => u = v)
| bg_list t w P : is_punct "[" t -> list_begins w P ->
    begins (t :: w) (fun u => exists l, u = JList l /\ P l)
| bg_dict t w P : is_punct "{" t -> dict_begins w P ->
    begins (t :: w) (fun u => exists kvs d, u = JDict d /\ is_dict kvs d /\ P kvs)
with list_begins : list token -> (list (json F) -> Prop) -> Prop :=
| lb_nothing : list_begins [] (fun _ => True)
| lb_elements w vs : elements w vs -> list_begins w (fun l => exists l', l = vs ++ l')
| lb_first w P : begins w P -> w <> [] -> list_begins w (fun l => exists x l', l = x :: l' /\ P x)
| lb_next w vs c w' P : elements w vs -> is_punct "," c -> begins w' P ->
    list_begins (w ++ c :: w') (fun l => exists x l', l = vs ++ x :: l' /\ P x)
with dict_begins : list token -> (list (list char * json F) -> Prop) -> Prop :=
| db_nothing : dict_begins [] (fun _ => True)
| db_members w kvs : members w kvs -> dict_begins w (fun l => exists l', l = kvs ++ l')
| db_first w P : member_begins w P -> dict_begins w (fun l => exists x l', l = x :: l' /\ P x)
| db_next w kvs c w' P : members w kvs -> is_punct "," c -> member_begins w' P ->
    dict_begins (w ++ c :: w') (fun l => exists x l', l = kvs ++ x :: l' /\ P x)
with member_begins : list token -> (list char * json F -> Prop) -> Prop :=
| mb_key k : is_kind "string"%string k -> member_begins [k] (fun kv => fst kv = unescape (tk_value k))
| mb_value k c w P : is_kind "string"%string k -> is_punct ":" c -> begins w P ->
    member_begins (k :: c :: w) (fun kv => fst kv = unescape (tk_value k) /\ P (snd kv)).
End JsonPart.
