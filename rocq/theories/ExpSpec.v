(** What the expected values of an error stand for: specification (C52, C53).
    Only the grammar and its language are mentioned. *)
From Verif Require Export LLSpec FirstSpec.

Section ExpSpec.
Context {T : Type} {V : nat -> Type}.
Notation gram := (gram T V).
Variable E : env T V.

(** the parser [q] is reported under the name [l] when it is missing *)
Definition called B (q : gram B) (l : string) : Prop :=
  match q with
  | GSym _ _ l' => l = l'
  | GLiteral _ _ l' => l = l'
  | GLabel _ l' => l = l'
  | GUnexpected l' => l = l'
  | GEof => l = "end of file"%string
  | GAligned _ | GIndented _ _ => l = "indentation"%string
  | _ => False
  end.

(** the parser [g] contains a part called [l], and any word of that part can
    come after [w] *)
Definition rightly {A} (g : gram A) (w : list T) (l : string) : Prop :=
  exists B (q : gram B), occurs E q A g /\ called B q l /\
    forall u v, sentence E q u v -> viable E g (w ++ u).

(** one of the names in [X] is that of a part of [g] that can start with [t] *)
Definition mentions {A} (g : gram A) (X : list string) (t : T) : Prop :=
  exists l B (q : gram B), In l X /\ occurs E q A g /\ called B q l /\ first E q t.

(** parsers that expect nothing: tests and regular expressions *)
Definition anonymous B (q : gram B) : Prop :=
  match q with GSatisfy _ | GRegexp _ => True | _ => False end.
(** tests are labelled: [label] is the only combinator applied to them *)
Definition labelled_node B (q : gram B) : Prop :=
  match q with
  | GFmap p _ => ~ anonymous _ p
  | GAlt p p' => ~ anonymous _ p /\ ~ anonymous _ p'
  | GBind p f => ~ anonymous _ p /\ forall v, ~ anonymous _ (f v)
  | GSeq p p' _ => ~ anonymous _ p /\ ~ anonymous _ p'
  | GMaybe p => ~ anonymous _ p
  | GMany p => ~ anonymous _ p
  | GAttempt p => ~ anonymous _ p
  | GRecover p => ~ anonymous _ p
  | GRecoverWith p _ _ => ~ anonymous _ p
  | GRecoverWithFn p _ _ => ~ anonymous _ p
  | GBlock p => ~ anonymous _ p
  | GAligned p => ~ anonymous _ p
  | GIndented _ p => ~ anonymous _ p
  | GDelay d => ~ anonymous _ (E d)
  | _ => True
  end.

(** no sentence is the beginning of a longer one *)
Definition prefix_free {A} (p : gram A) : Prop :=
  forall w v t w' v', sentence E p w v -> ~ sentence E p (w ++ t :: w') v'.
(** what is repeated is prefix-free *)
Definition clear_end_node B (q : gram B) : Prop :=
  match q with GMany p => prefix_free p | _ => True end.

End ExpSpec.
