(** Specification for C76: lists with mistakes in them.

    [items]: one item after the other is read, as the documented rules say
    ([peg], PegSpec.v), without any mistake.  [sep_items]: the same with
    separators between the items.  [pieces]: each item is either read without a
    mistake, or it has begun and there is a way of mending it (MendSpec.v). *)
From Verif Require Export MendSpec.

Section ListSpec.
Context {T : Type} {V : nat -> Type}.
Variables (E : env T V) (s : list T) (at_ : nat -> loc).
Notation reads p m i v j := (peg E s (fun i => loc_col (at_ i)) _ p m i (PSucc v j)).

(** [items p m i vs k]: from [i] to [k] there are items with the values [vs]
    (items of a repetition are not empty) *)
Inductive items {A} (p : gram T V A) (m : Z) : nat -> list A -> nat -> Prop :=
| it_nil i : items p m i [] i
| it_cons i v j vs k : i < j -> reads p m i v j -> items p m j vs k -> items p m i (v :: vs) k.

(** separator, item, separator, item, ... *)
Inductive more_items {A B} (p : gram T V A) (sep : gram T V B) (m : Z) : nat -> list A -> nat -> Prop :=
| mi_nil i : more_items p sep m i [] i
| mi_cons i w i' v j vs k : i < j -> reads sep m i w i' -> reads p m i' v j -> more_items p sep m j vs k ->
    more_items p sep m i (v :: vs) k.
(** item, separator, item, ... *)
Inductive sep_items {A B} (p : gram T V A) (sep : gram T V B) (m : Z) : nat -> list A -> nat -> Prop :=
| si_nil i : sep_items p sep m i [] i
| si_cons i v j vs k : reads p m i v j -> more_items p sep m j vs k -> sep_items p sep m i (v :: vs) k.

(** [pieces p m ins i c k]: from [i] to [k] there are items; those with mistakes
    can be mended, one by one, at a total cost of [c] *)
Inductive pieces {A} (p : gram T V A) (m ins : Z) : nat -> nat -> nat -> Prop :=
| pc_nil i : pieces p m ins i 0 i
| pc_read i v j c k : i < j -> reads p m i v j -> pieces p m ins j c k -> pieces p m ins i c k
| pc_mend i y c k : mend E s at_ A p m i ins None y -> pieces p m ins (y_pos y) c k ->
    pieces p m ins i (y_cost y + c) k.

(** an error reported at a place not before [k] *)
Definition not_before (k : nat) (e : erroritem) : Prop :=
  exists j, k <= j <= List.length s /\ ei_loc e = at_ j.
End ListSpec.
