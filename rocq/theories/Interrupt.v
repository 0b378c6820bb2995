(** Running with interruptions.  CPython can raise an exception that no line of the
    library asks for - KeyboardInterrupt from a signal, RecursionError from the limit of
    the call stack, MemoryError - when a function is entered or left.  The library has
    no [try] statement (src/reparsec), so such an exception leaves every active call. *)
From Verif Require Export Interp.

(** *** The undisturbed run with its moments: each call of a parse function has two,
    when it is entered and when it is left (by a result or by an exception); a moment
    is known by the number of parse functions active at that time. *)
Definition mm (A : Type) : Type := nat -> list nat * out A.
Definition mret {A} (o : out A) : mm A := fun _ => ([], o).
Definition mbind {A B} (m : mm A) (f : A -> mm B) : mm B :=
  fun d => match m d with
           | (l, Ret a) => let (l', o) := f a d in (l ++ l', o)
           | (l, Raise e) => (l, Raise e)
           | (l, NoFuel) => (l, NoFuel)
           end.
Definition mcall {A} (m : mm A) : mm A :=
  fun d => let (l, o) := m (S d) in (S d :: l ++ [S d], o).
Definition moments : effects := Effects mm (@mret) (@mbind) (@mcall) (fun _ _ m => m).

(** *** The disturbed run: [hits k d] says that an exception is raised at moment number
    [k], where [d] parse functions are active.  The outcome is [None] if it was: nothing
    in the library catches it.  [k] counts on through the run. *)
Definition dist (A : Type) : Type := nat -> nat -> nat * option (out A).
Section Disturbed.
Variable hits : nat -> nat -> bool.
Definition xret {A} (o : out A) : dist A := fun _ k => (k, Some o).
Definition xbind {A B} (m : dist A) (f : A -> dist B) : dist B :=
  fun d k => match m d k with
             | (k', Some (Ret a)) => f a d k'
             | (k', Some (Raise e)) => (k', Some (Raise e))
             | (k', Some NoFuel) => (k', Some NoFuel)
             | (k', None) => (k', None)
             end.
Definition xcall {A} (m : dist A) : dist A :=
  fun d k =>
    if hits k (S d) then (k, None)
    else match m (S d) (S k) with
         | (k', Some o) => if hits k' (S d) then (k', None) else (S k', Some o)
         | (k', None) => (k', None)
         end.
Definition disturbed : effects := Effects dist (@xret) (@xbind) (@xcall) (fun _ _ m => m).
End Disturbed.

(** parser.py:30-55  Parser.parse, disturbed: the moment where it was interrupted (or
    the number of moments), and the outcome *)
Definition parse_disturbed {T V A} (hits : nat -> nat -> bool) (E : env T V) (n : nat) (g : gram T V A)
    (s : list T) (recover : bool) (mi : Z) (get : loc -> list T -> nat -> loc) (fmt : loc -> string)
    : nat * option (out (presult T A)) :=
  gparse (disturbed hits) E n g s recover mi get fmt 0 0.
(** ... and its moments without disturbance *)
Definition parse_moments {T V A} (E : env T V) (n : nat) (g : gram T V A)
    (s : list T) (recover : bool) (mi : Z) (get : loc -> list T -> nat -> loc) (fmt : loc -> string)
    : list nat := fst (gparse moments E n g s recover mi get fmt 0).
