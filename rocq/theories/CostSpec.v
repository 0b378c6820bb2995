(** How much work parsing is: specification (C57).  Only the grammar type and its
    language are mentioned. *)
From Verif Require Export TermSpec.

Section CostSpec.
Context {T : Type} {V : nat -> Type}.
Notation gram := (gram T V).
Variable E : env T V.

(** the parser is built from at most [n] parsers (the continuations of a [bind] have
    a common bound) *)
Fixpoint size_le {A} (g : gram A) (n : nat) : Prop :=
  match g with
  | GFmap p _ => exists a, size_le p a /\ a + 1 <= n
  | GAlt p q => exists a b, size_le p a /\ size_le q b /\ a + b + 1 <= n
  | GBind p f => exists a b, size_le p a /\ (forall v, size_le (f v) b) /\ a + b + 1 <= n
  | GSeq p q _ => exists a b, size_le p a /\ size_le q b /\ a + b + 1 <= n
  | GMaybe p | GMany p => exists a, size_le p a /\ a + 1 <= n
  | GAttempt p | GLabel p _ | GRecover p | GRecoverWith p _ _ | GRecoverWithFn p _ _
  | GBlock p | GAligned p | GIndented _ p => exists a, size_le p a /\ a + 1 <= n
  | _ => 1 <= n
  end.
(** one bound for the parser and all its Delays *)
Definition bounded_size {A} (g : gram A) : Prop :=
  exists m, size_le g m /\ forall d, size_le (E d) m.

(** at most [r] Delays can be entered one after the other without reading a token *)
Fixpoint left_depth (r : nat) {A} (g : gram A) : Prop :=
  forall d, lcall E A g d -> match r with O => False | S r => left_depth r (E d) end.
Definition bounded_depth {A} (g : gram A) : Prop :=
  exists r, left_depth r g /\ forall d, left_depth r (E d).

Definition no_attempt {A} (g : gram A) : Prop := gall (fun B q => ~ is_attempt B q) g.

(** none of recover, recover_with, recover_with_fn in the parser *)
Definition is_recover B (q : gram B) : Prop :=
  match q with GRecover _ | GRecoverWith _ _ _ | GRecoverWithFn _ _ _ => True | _ => False end.
Definition no_recover {A} (g : gram A) : Prop := gall (fun B q => ~ is_recover B q) g.
End CostSpec.
