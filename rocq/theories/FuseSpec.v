(** Tokens first or characters only: when a parser over tokens and a parser
    over characters are built alike (C65).

    [s] is the input of the first parser (tokens), [s'] that of the second
    (characters); [place k] is where token [k] begins in [s'], and
    [place (length s)] is the end of [s'].  The two parsers have to be built
    with the same combinators around parts that correspond: wherever the first
    one's part is run at a token, the second one's part, run at the place of
    the token, has the corresponding outcome. *)
From Verif Require Export DiagSpec.

Section Fuse.
Context {T T' : Type} {V V' : nat -> Type}.
Variable (E : env T V) (E' : env T' V').
Variable (s : list T) (s' : list T') (at_ at_' : nat -> loc).
Variable place : nat -> nat.

(** [place] keeps the order and the end. *)
Definition places : Prop :=
  (forall p q, p < q <= List.length s -> place p < place q) /\ place (List.length s) = List.length s'.

(** Corresponding outcomes of two parsers started at [i] and [place i]: values
    are related by [R], positions by [place], and the expected values are the
    same - except that with [loose] those of what has not consumed anything
    may differ (a label around will replace them). *)
Definition outcomes {A A'} (R : A -> A' -> Prop) (loose : bool) (i : nat) (o : dres A) (o' : dres A') : Prop :=
  match o, o' with
  | DSucc v j X, DSucc v' j' X' =>
      R v v' /\ i <= j <= List.length s /\ j' = place j /\ (loose = false \/ i < j -> X = X')
  | DFail b l X, DFail b' l' X' =>
      b = b' /\ (exists p, i <= p <= List.length s /\ l = at_ p /\ l' = at_' (place p)) /\ (loose = false \/ b = true -> X = X')
  | DExn e, DExn e' => e = e'
  | _, _ => False
  end.
(** Parts that correspond. *)
Definition part {A A'} (R : A -> A' -> Prop) (loose : bool) (g : gram T V A) (g' : gram T' V' A') : Prop :=
  forall m i o, i <= List.length s -> diag E s at_ A g m i o ->
  exists o', diag E' s' at_' A' g' m (place i) o' /\ outcomes R loose i o o'.

(** which Delay objects correspond, and how their values are related *)
Variable link : nat -> nat -> Prop.
Variable RV : forall d d', V d -> V' d' -> Prop.

(** callbacks: related results, or the same exception *)
Definition calls {A A'} (R : A -> A' -> Prop) (x : out A) (x' : out A') : Prop :=
  match x, x' with
  | Ret v, Ret v' => R v v'
  | Raise e, Raise e' => e = e'
  | NoFuel, NoFuel => True
  | _, _ => False
  end.

(** Built alike: either parts that correspond, or the same combinator around
    parsers that are built alike. *)
Fixpoint alike (loose : bool) {A A'} (R : A -> A' -> Prop) (g : gram T V A) (g' : gram T' V' A') {struct g} : Prop :=
  part R loose g g' \/
  match g in Verif.Grammar.gram _ _ A, g' in Verif.Grammar.gram _ _ A' return (A -> A' -> Prop) -> Prop with
  | GPure x, GPure x' => fun R => R x x'
  | GPureFn f, GPureFn f' => fun R => calls R (f tt) (f' tt)
  | GUnexpected l, GUnexpected l' => fun R => l = l'
  | GEof, GEof => fun R => R tt tt
  | @GFmap _ _ B _ p f, @GFmap _ _ B' _ p' f' => fun R =>
      exists Q : B -> B' -> Prop, alike loose Q p p' /\ forall v v', Q v v' -> calls R (f v) (f' v')
  | GAlt p q, GAlt p' q' => fun R => alike loose R p p' /\ alike loose R q q'
  | @GBind _ _ B _ p f, @GBind _ _ B' _ p' f' => fun R =>
      exists Q : B -> B' -> Prop, alike loose Q p p' /\ forall v v', Q v v' -> alike false R (f v) (f' v')
  | @GSeq _ _ B C _ p q merge, @GSeq _ _ B' C' _ p' q' merge' => fun R =>
      exists (Q : B -> B' -> Prop) (S : C -> C' -> Prop), alike loose Q p p' /\ alike false S q q' /\
        forall v v' w w', Q v v' -> S w w' -> R (merge v w) (merge' v' w')
  | @GMaybe _ _ B p, @GMaybe _ _ B' p' => fun R =>
      exists Q : B -> B' -> Prop, alike loose Q p p' /\ R None None /\ forall v v', Q v v' -> R (Some v) (Some v')
  | @GMany _ _ B p, @GMany _ _ B' p' => fun R =>
      exists Q : B -> B' -> Prop, alike false Q p p' /\ forall l l', Forall2 Q l l' -> R l l'
  | GAttempt p, GAttempt p' => fun R => alike false R p p'
  | GLabel p x, GLabel p' x' => fun R => x = x' /\ alike true R p p'
  | GRecover p, GRecover p' => fun R => alike loose R p p'
  | GRecoverWith p _ _, GRecoverWith p' _ _ => fun R => alike loose R p p'
  | GRecoverWithFn p _ _, GRecoverWithFn p' _ _ => fun R => alike loose R p p'
  | GDelay d, GDelay d' => fun R => link d d' /\ forall v v', RV d d' v v' -> R v v'
  | GUndef, GUndef => fun R => True
  | _, _ => fun _ => False
  end R.
Definition alike_env : Prop := forall d d', link d d' -> alike false (RV d d') (E d) (E' d').
End Fuse.
