(** Delays that are defined while parsers run: by another thread, or by a callback. *)
From Verif Require Export Interp.

(** *** A parse that looks up Delays.  [defined k d] says whether Delay number [d] has
    its definition when it is used, at the [k]-th use of a Delay in the parse; before,
    the functions stored in the object raise RuntimeError (parser.py:754-767), which
    nothing in the library catches.  [defined] is arbitrary: it stands for what other
    threads and callbacks have done by then. *)
Definition late (A : Type) : Type := nat -> nat * out A.
Section Late.
Variable defined : nat -> nat -> bool.
Definition lret {A} (o : out A) : late A := fun k => (k, o).
Definition lbind {A B} (m : late A) (f : A -> late B) : late B :=
  fun k => match m k with
           | (k', Ret a) => f a k'
           | (k', Raise e) => (k', Raise e)
           | (k', NoFuel) => (k', NoFuel)
           end.
(** parser.py:793-801  Delay.parse_fast_fn, Delay.parse_fn: self._fns is read when the
    Delay is used *)
Definition luse {A} (d : nat) (m : late A) : late A :=
  fun k => if defined k d then m (S k) else (S k, Raise DelayUndefined).
Definition lates : effects := Effects late (@lret) (@lbind) (fun _ m => m) (@luse).
End Late.
(** parser.py:30-55  Parser.parse, where Delays get the definitions [E] at some time *)
Definition parse_late {T V A} (defined : nat -> nat -> bool) (E : env T V) (n : nat) (g : gram T V A)
    (s : list T) (recover : bool) (mi : Z) (get : loc -> list T -> nat -> loc) (fmt : loc -> string)
    : out (presult T A) :=
  snd (gparse (lates defined) E n g s recover mi get fmt 0).

(** *** The Delays used by a parse, in order, when all are defined before *)
Definition used (A : Type) : Type := (list nat * out A)%type.
Definition uret {A} (o : out A) : used A := ([], o).
Definition ubind {A B} (m : used A) (f : A -> used B) : used B :=
  match m with
  | (l, Ret a) => let (l', o) := f a in (l ++ l', o)
  | (l, Raise e) => (l, Raise e)
  | (l, NoFuel) => (l, NoFuel)
  end.
Definition uuse {A} (d : nat) (m : used A) : used A := let (l, o) := m in (d :: l, o).
Definition uses : effects := Effects used (@uret) (@ubind) (fun _ m => m) (@uuse).
Definition parse_uses {T V A} (E : env T V) (n : nat) (g : gram T V A)
    (s : list T) (recover : bool) (mi : Z) (get : loc -> list T -> nat -> loc) (fmt : loc -> string)
    : list nat := fst (gparse uses E n g s recover mi get fmt).

(** *** Several threads call [define] of the same Delay object.  parser.py:788-791:
<<
        if self._defined:
            raise RuntimeError("Delayed parser was already defined")
        self._defined = True
        self._fns = parser.to_fns()
>>
    The object: the attribute [_defined], and whose definition [_fns] holds ([None]: the
    functions that raise). *)
Record delay : Type := DelayObj { dl_defined : bool; dl_fns : option nat }.
(** parser.py:753-770  Delay.__init__ *)
Definition new_delay : delay := DelayObj false None.
(** where a call of [define] is; one step for each access to the object *)
Inductive pc : Type := AtTest | AtFlag | AtStore | Returned | Raised.
Definition define_step (i : nat) (st : delay) (p : pc) : delay * pc :=
  match p with
  | AtTest => if dl_defined st then (st, Raised) else (st, AtFlag)
  | AtFlag => (DelayObj true (dl_fns st), AtStore)
  | AtStore => (DelayObj (dl_defined st) (Some i), Returned)
  | Returned => (st, Returned)
  | Raised => (st, Raised)
  end.
(** thread number [i] runs the [i]-th call *)
Fixpoint set_nth {X} (i : nat) (x : X) (l : list X) : list X :=
  match l, i with
  | [], _ => []
  | _ :: l, O => x :: l
  | y :: l, S i => y :: set_nth i x l
  end.
Definition turn (i : nat) (sys : delay * list pc) : delay * list pc :=
  match nth_error (snd sys) i with
  | Some p => let (st, p') := define_step i (fst sys) p in (st, set_nth i p' (snd sys))
  | None => sys
  end.
Fixpoint run_turns (schedule : list nat) (sys : delay * list pc) : delay * list pc :=
  match schedule with [] => sys | i :: l => run_turns l (turn i sys) end.
(** [n] threads about to call [define] *)
Definition definers (n : nat) : delay * list pc := (new_delay, repeat AtTest n).
(** all calls are over *)
Definition over (ps : list pc) : Prop := forall p, In p ps -> p = Returned \/ p = Raised.

(** parser.py:803-806  Delay.to_fns: the functions found now, or functions that look at
    [_fns] when they are called *)
Inductive fns : Type := Now (def : option nat) | WhenCalled.
Definition to_fns (st : delay) : fns := if dl_defined st then Now (dl_fns st) else WhenCalled.
(** the definition that is run when these functions are called, the object being [st] then *)
Definition means (f : fns) (st : delay) : option nat :=
  match f with Now def => def | WhenCalled => dl_fns st end.
