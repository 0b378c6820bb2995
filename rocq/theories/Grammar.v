(** Deep embedding of the parser objects a user can build (parser.py,
    primitive.py, sequence.py, scannerless.py, layout.py), the interpreters
    that give their [fast_fn] and [fn], and the derived combinators. *)
From Verif Require Export Combinators.

Section Grammar.
Context {T : Type}.
(** value type of each Delay object; Delays are identified by numbers *)
Context {V : nat -> Type}.

(** A parser object.  [gram A] is a parser of values of type [A]:
    - primitive.py: [GPure], [GPureFn], [GUnexpected]
    - sequence.py:15-70: [GEof], [GSatisfy], [GSym] (label defaults to
      repr(s), core/sequence.py:137-142)
    - scannerless.py:16-57: [GLiteral] (label repr(s)), [GRegexp]
    - parser.py:809-958: [GFmap] .. [GRecoverWithFn]; [Union] types of [alt]
      and [recover_with] are a common type [A]
    - [GSeq p q merge]: core/combinators.py:199-290 _seq with its merge function
      (seql, seqr, seq, tuple3..tuple8)
    - layout.py: [GBlock], [GAligned], [GIndented]
    - [GDelay d]: parser.py:740-806, reference to Delay object number [d]
    - [GUndef]: the functions a Delay holds before [define], which raise
      RuntimeError (parser.py:755-763)
    A [GBind] callback that raises is modelled by returning a parser that
    raises. *)
Inductive gram : Type -> Type :=
| GPure {A} (x : A) : gram A
| GPureFn {A} (f : unit -> out A) : gram A
| GUnexpected {A} (l : string) : gram A
| GEof : gram unit
| GSatisfy (test : T -> out bool) : gram T
| GSym (teq : T -> T -> bool) (x : T) (l : string) : gram T
| GLiteral (teq : T -> T -> bool) (x : list T) (l : string) : gram (list T)
| GRegexp {A} (m : list T -> nat -> option (nat * option A)) : gram A
| GFmap {A B} (p : gram A) (f : A -> out B) : gram B
| GAlt {A} (p q : gram A) : gram A
| GBind {A B} (p : gram A) (f : A -> gram B) : gram B
| GSeq {A B C} (p : gram A) (q : gram B) (merge : A -> B -> C) : gram C
| GMaybe {A} (p : gram A) : gram (option A)
| GMany {A} (p : gram A) : gram (list A)
| GAttempt {A} (p : gram A) : gram A
| GLabel {A} (p : gram A) (x : string) : gram A
| GRecover {A} (p : gram A) : gram A
| GRecoverWith {A} (p : gram A) (x : A) (l : string) : gram A
| GRecoverWithFn {A} (p : gram A) (fn : list T -> nat -> out A)
    (lab : A -> string) : gram A
| GBlock {A} (p : gram A) : gram A
| GAligned {A} (p : gram A) : gram A
| GIndented {A} (delta : Z) (p : gram A) : gram A
| GDelay (d : nat) : gram (V d)
| GUndef {A} : gram A.

(** Contents of every Delay object. *)
Definition env : Type := forall d : nat, gram (V d).

(** [fast E n g] is the [fast_fn] of [g] (core/parser.py:24-29), run with fuel
    [n]; each parser object called and each iteration of [many] uses one unit
    of depth. *)
Fixpoint fast (E : env) (n : nat) {A : Type} (g : gram A)
    (s : list T) (pos : nat) (c : ctx T) {struct n} : out (sres T A) :=
  match n with
  | O => NoFuel
  | S n =>
      match g in gram A return pfast T A with
      | GPure x => pure_fast x
      | GPureFn f => purefn_fast f
      | GUnexpected l => unexpected_fast l
      | GEof => eof_fast
      | GSatisfy test => satisfy_fast test
      | GSym teq x l => sym_fast teq x l
      | GLiteral teq x l => literal_fast teq x l
      | GRegexp m => regexp_fast m
      | GFmap p f => fmap_fast (fast E n p) f
      | GAlt p q => alt_fast (fast E n p) (fast E n q)
      | GBind p f => bind_fast (fast E n p) (fun v => fast E n (f v))
      | GSeq p q merge => seq_fast (fast E n p) (fast E n q) merge
      | GMaybe p => maybe_fast (fast E n p)
      | GMany p => many_fast (fast E n p) n false []
      | GAttempt p => attempt_fast (fast E n p)
      | GLabel p x => label_fast (fast E n p) x
      | GRecover p => recover_fast (fast E n p)
      | GRecoverWith p _ _ => recover_with_fast (fast E n p)
      | GRecoverWithFn p _ _ => recover_with_fast (fast E n p)
      | GBlock p => block_fast (fast E n p)
      | GAligned p => aligned_fast (fast E n p)
      | GIndented d p => indented_fast d (fast E n p)
      | GDelay d => fast E n (E d)
      | GUndef => fun _ _ _ => Raise DelayUndefined
      end s pos c
  end.

(** [full E n g] is the [fn] of [g]. *)
Fixpoint full (E : env) (n : nat) {A : Type} (g : gram A)
    (s : list T) (pos : nat) (c : ctx T) (ins : Z) (rem : option Z) {struct n}
    : out (res T A) :=
  match n with
  | O => NoFuel
  | S n =>
      match g in gram A return pfull T A with
      | GPure x => pure_full x
      | GPureFn f => purefn_full f
      | GUnexpected l => unexpected_full l
      | GEof => eof_full
      | GSatisfy test => satisfy_full test
      | GSym teq x l => sym_full teq x l
      | GLiteral teq x l => literal_full teq x l
      | GRegexp m => regexp_full m
      | GFmap p f => fmap_full (full E n p) f
      | GAlt p q => alt_full (full E n p) (full E n q)
      | GBind p f => bind_full (full E n p) (fun v => full E n (f v))
      | GSeq p q merge => seq_full (full E n p) (full E n q) merge
      | GMaybe p => maybe_full (full E n p)
      | GMany p => fun s pos c ins rem =>
          many_full (full E n p) n false [] s pos c ins
      | GAttempt p => attempt_full (fast E n p) (full E n p)
      | GLabel p x => label_full (full E n p) x
      | GRecover p => recover_full (full E n p)
      | GRecoverWith p x l =>
          recover_with_full (full E n p) (fun _ _ => Ret x) (fun _ => l)
      | GRecoverWithFn p fn lab => recover_with_full (full E n p) fn lab
      | GBlock p => block_full (full E n p)
      | GAligned p => aligned_full (full E n p)
      | GIndented d p => indented_full d (full E n p)
      | GDelay d => full E n (E d)
      | GUndef => fun _ _ _ _ _ => Raise DelayUndefined
      end s pos c ins rem
  end.

(** ** Derived combinators *)

(** core/combinators.py:208-223  seql, seqr, seq *)
Definition seql {A B} (p : gram A) (q : gram B) : gram A :=
  GSeq p q (fun l _ => l).
Definition seqr {A B} (p : gram A) (q : gram B) : gram B :=
  GSeq p q (fun _ r => r).
Definition seq {A B} (p : gram A) (q : gram B) : gram (A * B) :=
  GSeq p q (fun l r => (l, r)).

(** parser.py:961-973  sep_by *)
Definition sep_by {A B} (p : gram A) (sep : gram B) : gram (list A) :=
  GFmap (GMaybe (seq p (GMany (seqr sep p))))
    (fun v => Ret match v with None => [] | Some (x, l) => [x] ++ l end).

(** parser.py:976-987  between *)
Definition between {A B C} (op : gram B) (cl : gram C) (p : gram A) : gram A :=
  seqr op (seql p cl).

(** parser.py:1000-1004  the reducer of chainl1; operators may raise *)
Fixpoint chainl1_loop {A} (res : A) (tail : list ((A -> A -> out A) * A))
    : out A :=
  match tail with
  | [] => Ret res
  | (op, arg) :: tail => res' <- op res arg ;; chainl1_loop res' tail
  end.
Definition chainl1_reducer {A} (v : A * list ((A -> A -> out A) * A)) : out A :=
  chainl1_loop (fst v) (snd v).

(** parser.py:990-1006  chainl1 *)
Definition chainl1 {A} (arg : gram A) (op : gram (A -> A -> out A)) : gram A :=
  GFmap (seq arg (GMany (seq op arg))) chainl1_reducer.

(** parser.py:1022-1024  first loop of the reducer of chainr1: builds
    [rassoc] and the last operand *)
Fixpoint chainr1_push {A} (res : A) (tail : list ((A -> A -> out A) * A))
    (rassoc : list (A * (A -> A -> out A))) : A * list (A * (A -> A -> out A)) :=
  match tail with
  | [] => (res, rassoc)
  | (op, arg) :: tail => chainr1_push arg tail (rassoc ++ [(res, op)])
  end.
(** parser.py:1025-1026  second loop, over [reversed(rassoc)] *)
Fixpoint chainr1_pop {A} (res : A) (l : list (A * (A -> A -> out A))) : out A :=
  match l with
  | [] => Ret res
  | (arg, op) :: l => res' <- op arg res ;; chainr1_pop res' l
  end.
(** parser.py:1019-1027 *)
Definition chainr1_reducer {A} (v : A * list ((A -> A -> out A) * A)) : out A :=
  let '(res, rassoc) := chainr1_push (fst v) (snd v) [] in
  chainr1_pop res (rev rassoc).

(** parser.py:1009-1029  chainr1 *)
Definition chainr1 {A} (arg : gram A) (op : gram (A -> A -> out A)) : gram A :=
  GFmap (seq arg (GMany (seq op arg))) chainr1_reducer.

(** parser.py:464-484 TupleParser.then, 524-533 Tuple2.then, ...,
    core/combinators.py:236-290 tuple3..tuple8: the merge function appends one
    element, [( *a, b)].  Tuples are lists here (Python tuples are untyped
    sequences), so all components have one type. *)
Definition then2 {A} (p q : gram A) : gram (list A) :=
  GSeq p q (fun l r => [l; r]).
Definition thenS {A} (p : gram (list A)) (q : gram A) : gram (list A) :=
  GSeq p q (fun l r => l ++ [r]).

(** core/scannerless.py:68-72  literal *)
Definition literal (teq : T -> T -> bool) (repr : list T -> string) (x : list T)
    : out (gram (list T)) :=
  match x with
  | [] => Raise EmptyLiteral
  | _ => Ret (GLiteral teq x (repr x))
  end.

(** sequence.py:53-70, core/sequence.py:137-144  sym *)
Definition sym (teq : T -> T -> bool) (repr : T -> string) (x : T)
    (label : option string) : gram T :=
  GSym teq x (match label with None => repr x | Some l => l end).

(** parser.py:933-944, core/combinators.py:494-502  recover_with *)
Definition recover_with {A} (repr : A -> string) (p : gram A) (x : A)
    (label : option string) : gram A :=
  GRecoverWith p x (match label with None => repr x | Some l => l end).

(** parser.py:947-958, core/combinators.py:526  recover_with_fn *)
Definition recover_with_fn {A} (repr : A -> string) (p : gram A)
    (fn : list T -> nat -> out A) (label : option string) : gram A :=
  GRecoverWithFn p fn
    (fun x => match label with None => repr x | Some l => l end).

End Grammar.
Arguments gram T V A : clear implicits.
Arguments env T V : clear implicits.
