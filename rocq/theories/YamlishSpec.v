(** Documents of tests/parsers/yamlish.py: lines with columns, and how lines
    are written.  Only the type of values is taken from the model. *)
From Verif Require Import Yamlish JsonSpec.
Local Open Scope N_scope.

Section YamlishSpec.
Variable space : char -> bool.

(** a name: a letter or underscore, then letters, digits and underscores *)
Definition letter (c : char) : Prop := 65 <= c <= 90 \/ 97 <= c <= 122 \/ c = 95.
Definition is_name (x : list char) : Prop :=
  exists c r, x = c :: r /\ letter c /\ Forall (fun c => letter c \/ 48 <= c <= 57) r.
(** a colon (58) with blanks around it *)
Definition is_colon (x : list char) : Prop :=
  exists a b, x = a ++ 58 :: b /\ Forall (fun c => c = 32 \/ c = 9) (a ++ b).
(** a newline (10) and any white space, [c] characters of which are after the
    last newline *)
Definition is_gap (x : list char) (c : nat) : Prop :=
  exists a b, x = 10 :: a /\ Forall (fun c => space c = true) a /\
    ~ In 10 b /\ c = List.length b /\ exists a', x = a' ++ 10 :: b.

(** A line: its column, the key, and the value if it is on the same line. *)
Record line : Type := Line { ln_col : nat; ln_key : list char; ln_value : option (list char) }.
Inductive spelled : line -> list char -> Prop :=
| sp_leaf c k v w : is_name k -> is_colon w -> is_name v -> spelled (Line c k (Some v)) (k ++ w ++ v)
| sp_open c k w : is_name k -> is_colon w -> spelled (Line c k None) (k ++ w).

(** a text that begins in column [c], and its lines; after the last value the
    text may end without a newline *)
Inductive lines_of : list char -> nat -> list line -> Prop :=
| lo_end c : lines_of [] c []
| lo_line k v c x gap c' rest ls :
    spelled (Line c k v) x -> is_gap gap c' -> lines_of rest c' ls ->
    lines_of (x ++ gap ++ rest) c (Line c k v :: ls)
| lo_last k v c x : spelled (Line c k (Some v)) x -> lines_of x c [Line c k (Some v)].
(** the whole text: white space first *)
Definition document (src : list char) (ls : list line) : Prop :=
  exists w rest c, src = w ++ rest /\ Forall (fun c => space c = true) w /\
    (~ In 10 w /\ c = List.length w \/ exists a b, w = a ++ 10 :: b /\ ~ In 10 b /\ c = List.length b) /\
    lines_of rest c ls.

(** The items that lines stand for: all items in column [c]; what is below a
    line without value is in column [c + 4], and there is something. *)
Inductive items : nat -> list line -> list (list char * yaml) -> Prop :=
| it_none c : items c [] []
| it_leaf c k v ls kvs : items c ls kvs -> items c (Line c k (Some v) :: ls) ((k, YStr v) :: kvs)
| it_nested c k sub d ls1 ls2 kvs :
    ls1 <> [] -> items (c + 4) ls1 sub -> is_dict sub d -> items c ls2 kvs ->
    items c (Line c k None :: ls1 ++ ls2) ((k, YDict d) :: kvs).
Definition means (src : list char) (v : yaml) : Prop :=
  exists ls kvs d, document src ls /\ items 0 ls kvs /\ is_dict kvs d /\ v = YDict d.
End YamlishSpec.
