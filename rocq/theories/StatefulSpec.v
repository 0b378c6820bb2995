(** Specification for C59: what it means that every callback of a parser changes the
    state only as a relation [R] allows. *)
From Verif Require Export Stateful.

Section StatefulSpec.
Context {St T : Type} {V : nat -> Type}.

(** every call of a callback, in any state, goes from a state to an [R]-related one *)
Definition moves (R : St -> St -> Prop) {X} (m : st St X) : Prop := forall w, R w (fst (m w)).

Fixpoint callbacks_move (R : St -> St -> Prop) {A} (g : sgram St T V A) : Prop :=
  match g with
  | XPureFn f => moves R (f tt)
  | XSatisfy test => forall t, moves R (test t)
  | XFmap p f => callbacks_move R p /\ forall a, moves R (f a)
  | XBind p f => callbacks_move R p /\
      forall a w, R w (fst (f a w)) /\
        match f a w with
        | (_, Ret q) => callbacks_move R q
        | _ => True
        end
  | XRecoverWithFn p fn _ => callbacks_move R p /\ forall s i, moves R (fn s i)
  | XAlt p q => callbacks_move R p /\ callbacks_move R q
  | XSeq p q _ => callbacks_move R p /\ callbacks_move R q
  | XMaybe p => callbacks_move R p
  | XMany p => callbacks_move R p
  | XAttempt p | XLabel p _ | XRecover p | XRecoverWith p _ _
  | XBlock p | XAligned p | XIndented _ p => callbacks_move R p
  | XPure _ | XUnexpected _ | XEof | XSym _ _ _ | XLiteral _ _ _ | XRegexp _
  | XDelay _ | XUndef => True
  end.
Definition env_moves (R : St -> St -> Prop) (E : senv St T V) : Prop :=
  forall d, callbacks_move R (E d).

Definition is_preorder (R : St -> St -> Prop) : Prop :=
  (forall w, R w w) /\ (forall a b c, R a b -> R b c -> R a c).
End StatefulSpec.
