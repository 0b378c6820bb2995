(** Outcome monad: exceptions and non-termination as values. *)
From Coq Require Export List ZArith Lia Bool String.
Export ListNotations.
Open Scope list_scope.

(** The exceptions the library itself raises, plus those of user callbacks.
    - [ManyEmpty]: RuntimeError("parser shouldn't accept empty string"),
      core/combinators.py:333,357
    - [DelayUndefined]: RuntimeError("Delayed parser was not defined"),
      parser.py:758,763
    - [DelayRedefined]: RuntimeError("Delayed parser was already defined"),
      parser.py:789
    - [EmptyLiteral]: ValueError("Expected non-empty value"),
      core/scannerless.py:70
    - [UserExn]: whatever a user callback raises. *)
Inductive exn : Type :=
| ManyEmpty
| DelayUndefined
| DelayRedefined
| EmptyLiteral
| UserExn (msg : string).

(** Outcome of running Python code: it returns, raises, or has not finished
    within the fuel given to the interpreter ([NoFuel], never produced by a
    finished execution). *)
Inductive out (A : Type) : Type :=
| Ret (a : A)
| Raise (e : exn)
| NoFuel.
Arguments Ret {A} a.
Arguments Raise {A} e.
Arguments NoFuel {A}.

Definition obind {A B} (m : out A) (f : A -> out B) : out B :=
  match m with
  | Ret a => f a
  | Raise e => Raise e
  | NoFuel => NoFuel
  end.

Notation "x <- m ;; k" := (obind m (fun x => k))
  (at level 61, m at next level, right associativity).

Definition omap {A B} (f : A -> B) (m : out A) : out B :=
  obind m (fun a => Ret (f a)).

(** A Python [for] loop that appends the results of a call: left to right,
    the first exception aborts. *)
Fixpoint mapM {A B} (f : A -> out B) (l : list A) : out (list B) :=
  match l with
  | [] => Ret []
  | x :: l' => y <- f x ;; ys <- mapM f l' ;; Ret (y :: ys)
  end.

(** The same for a loop body that appends several elements. *)
Fixpoint flat_mapM {A B} (f : A -> out (list B)) (l : list A) : out (list B) :=
  match l with
  | [] => Ret []
  | x :: l' => y <- f x ;; ys <- flat_mapM f l' ;; Ret (y ++ ys)
  end.
