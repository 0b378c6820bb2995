(** Rebuilding a parser: same combinators, components replaced by equivalent
    ones, Delay references replaced by their definitions or back. *)
From Verif Require Export LawSpec.

Section CongrSpec.
Context {T : Type} {V : nat -> Type}.
Notation gram := (gram T V).

(** [g] and [g'] are built by the same combinator (with the same functions,
    labels, constants) from components related by [R] *)
Inductive alike (R : forall A, gram A -> gram A -> Prop) : forall A, gram A -> gram A -> Prop :=
| al_pure A (x : A) : alike R A (GPure x) (GPure x)
| al_purefn A (f : unit -> out A) : alike R A (GPureFn f) (GPureFn f)
| al_unexpected A l : alike R A (GUnexpected l) (GUnexpected l)
| al_eof : alike R unit GEof GEof
| al_satisfy test : alike R T (GSatisfy test) (GSatisfy test)
| al_sym teq x l : alike R T (GSym teq x l) (GSym teq x l)
| al_literal teq x l : alike R (list T) (GLiteral teq x l) (GLiteral teq x l)
| al_regexp A m : alike R A (GRegexp m) (GRegexp m)
| al_undef A : alike R A GUndef GUndef
| al_fmap A B (p p' : gram A) (f : A -> out B) : R A p p' -> alike R B (GFmap p f) (GFmap p' f)
| al_alt A (p p' q q' : gram A) : R A p p' -> R A q q' -> alike R A (GAlt p q) (GAlt p' q')
| al_bind A B (p p' : gram A) (f f' : A -> gram B) :
    R A p p' -> (forall v, R B (f v) (f' v)) -> alike R B (GBind p f) (GBind p' f')
| al_seq A B C (p p' : gram A) (q q' : gram B) (merge : A -> B -> C) :
    R A p p' -> R B q q' -> alike R C (GSeq p q merge) (GSeq p' q' merge)
| al_maybe A (p p' : gram A) : R A p p' -> alike R (option A) (GMaybe p) (GMaybe p')
| al_many A (p p' : gram A) : R A p p' -> alike R (list A) (GMany p) (GMany p')
| al_attempt A (p p' : gram A) : R A p p' -> alike R A (GAttempt p) (GAttempt p')
| al_label A (p p' : gram A) x : R A p p' -> alike R A (GLabel p x) (GLabel p' x)
| al_recover A (p p' : gram A) : R A p p' -> alike R A (GRecover p) (GRecover p')
| al_with A (p p' : gram A) x l : R A p p' -> alike R A (GRecoverWith p x l) (GRecoverWith p' x l)
| al_withfn A (p p' : gram A) fn lab :
    R A p p' -> alike R A (GRecoverWithFn p fn lab) (GRecoverWithFn p' fn lab)
| al_block A (p p' : gram A) : R A p p' -> alike R A (GBlock p) (GBlock p')
| al_aligned A (p p' : gram A) : R A p p' -> alike R A (GAligned p) (GAligned p')
| al_indented A delta (p p' : gram A) :
    R A p p' -> alike R A (GIndented delta p) (GIndented delta p').

(** [rebuilt L E1 E2 g g']: [g'] comes from [g] by replacing any number of
    components [p] by some [q] with [L p q], by putting the definition of a
    Delay (in [E1]) in place of the Delay, or the Delay in place of its
    definition (in [E2]) *)
Inductive rebuilt (L : forall A, gram A -> gram A -> Prop) (E1 E2 : env T V)
  : forall A, gram A -> gram A -> Prop :=
| rb_law A (p q : gram A) : L A p q -> rebuilt L E1 E2 A p q
| rb_alike A (p q : gram A) : alike (rebuilt L E1 E2) A p q -> rebuilt L E1 E2 A p q
| rb_delay d : rebuilt L E1 E2 (V d) (GDelay d) (GDelay d)
| rb_unfold d (q : gram (V d)) : rebuilt L E1 E2 (V d) (E1 d) q -> rebuilt L E1 E2 (V d) (GDelay d) q
| rb_fold d (p : gram (V d)) : rebuilt L E1 E2 (V d) p (E2 d) -> rebuilt L E1 E2 (V d) p (GDelay d).

(** [g] run with the Delay definitions [E1] and [g'] run with [E2] give the same
    outcomes on every input (as [same_upto], LawSpec.v) *)
Definition same_between (X : Prop) (E1 E2 : env T V) {A} (g g' : gram A) : Prop :=
  forall s pos c, pos <= List.length s ->
  agree X (fun n => fast E1 n g s pos c) (fun n => fast E2 n g' s pos c) /\
  forall ins rem,
  agree X (fun n => full E1 n g s pos c ins rem) (fun n => full E2 n g' s pos c ins rem).

End CongrSpec.
