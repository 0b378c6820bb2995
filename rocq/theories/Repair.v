(** Model of src/reparsec/core/repair.py (and core/chain.py) *)
From Verif Require Export Types.

(** core/chain.py:16-19  Append: iterating an [Append(x, y)] yields the
    elements of x, then those of y.  It is only ever observed by iteration, so
    [Iterable[str]] is modelled by [list string] and [Append] by [++]. *)
Definition Append (x y : list string) : list string := x ++ y.

(** core/repair.py:14-26  Skip, Insert, RepairOp *)
Inductive rop : Type :=
| Skip (count : nat)
| Insert (label : string).

(** core/repair.py:29-34  OpItem *)
Record opitem : Type := OpItem {
  op_op : rop;
  op_loc : loc;
  op_exp : list string;
  op_con : bool
}.

Section Repair.
Context {T A : Type}.

(** core/repair.py:37-47  Repair.  [prio] is None, 0 or False (== 0). *)
Record repair : Type := Repair {
  r_cost : nat;
  r_prio : option nat;
  r_ins : Z;
  r_ops : list opitem;
  r_val : A;
  r_pos : nat;
  r_ctx : ctx T;
  r_exp : list string;
  r_con : bool
}.

(** core/repair.py:64-70  make_insert *)
Definition make_insert (rem : Z) (value : A) (pos : nat) (c : ctx T) (l : loc)
    (label : string) (expected : list string) : repair :=
  Repair 1 None (rem - 1)%Z [OpItem (Insert label) l expected false]
    value pos c [] true.

(** core/repair.py:73-79  make_user_insert *)
Definition make_user_insert (rem : Z) (value : A) (pos : nat) (c : ctx T)
    (l : loc) (label : string) (expected : list string) : repair :=
  Repair 1 (Some 0) (rem - 1)%Z [OpItem (Insert label) l expected false]
    value pos c [] true.

(** core/repair.py:82-88  make_skip (prio = False, i.e. 0) *)
Definition make_skip (ins : Z) (value : A) (pos : nat) (c : ctx T) (l : loc)
    (skip : nat) (expected : list string) : repair :=
  Repair skip (Some 0) ins [OpItem (Skip skip) l expected false]
    value pos c [] true.

(** core/repair.py:91-96  make_pending_skip (consumed stays False) *)
Definition make_pending_skip (ins : Z) (value : A) (pos : nat) (c : ctx T)
    (l : loc) (skip : nat) (expected : list string) : repair :=
  Repair skip (Some 0) ins [OpItem (Skip skip) l expected false]
    value pos c [] false.

End Repair.
Arguments repair T A : clear implicits.

(** core/repair.py:50-53  ops_set_expected (in-place in Python) *)
Definition ops_set_expected (ops : list opitem) (expected : list string)
    : list opitem :=
  map (fun o => if op_con o then o
                else OpItem (op_op o) (op_loc o) expected (op_con o)) ops.

(** core/repair.py:56-61  ops_prepend_expected (in-place in Python) *)
Definition ops_prepend_expected (ops : list opitem) (expected : list string)
    (consumed : bool) : list opitem :=
  map (fun o => if op_con o then o
                else OpItem (op_op o) (op_loc o) (Append expected (op_exp o))
                       (op_con o || consumed)) ops.
