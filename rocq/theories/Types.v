(** Model of src/reparsec/core/types.py *)
From Verif Require Export Base.

(** core/types.py:9-12  class Loc(NamedTuple).  Python ints are [Z]. *)
Record loc : Type := Loc { loc_pos : Z; loc_line : Z; loc_col : Z }.

Section Ctx.
Context {T : Type}.

(** core/types.py:15-23  class Ctx: column mark, cached location and the
    user-supplied function that computes a new location from an earlier one.
    The stream is a list of tokens (characters for str streams); positions in
    the stream are [nat]. *)
Record ctx : Type := Ctx {
  ctx_mark : Z;
  ctx_loc : loc;
  ctx_get : loc -> list T -> nat -> loc
}.

(** core/types.py:25-26  Ctx.get_loc *)
Definition get_loc (c : ctx) (s : list T) (pos : nat) : loc :=
  ctx_get c (ctx_loc c) s pos.

(** core/types.py:28-33  Ctx.update_loc *)
Definition update_loc (c : ctx) (s : list T) (pos : nat) : ctx :=
  if Z.eqb (Z.of_nat pos) (loc_pos (ctx_loc c)) then c
  else Ctx (ctx_mark c) (ctx_get c (ctx_loc c) s pos) (ctx_get c).

(** core/types.py:35-36  Ctx.set_mark *)
Definition set_mark (c : ctx) (m : Z) : ctx :=
  Ctx m (ctx_loc c) (ctx_get c).

End Ctx.
Arguments ctx T : clear implicits.
