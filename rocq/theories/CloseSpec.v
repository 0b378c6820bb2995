(** Specification for C79: inputs that end too early, where only tokens that close
    or join what was begun are missing. *)
From Verif Require Export MissSpec.

Section CloseSpec.
Context {T : Type} {V : nat -> Type}.
Notation gram := (gram T V).
Variable E : env T V.

(** [x] begins no alternative and no optional or repeated part ([apart_node]), and
    where the parser accepts it, it waits for exactly this token, so that it can
    insert it; it is not a part of what regular expressions match *)
Definition closing_node (x : T) B (q : gram B) : Prop :=
  apart_node E x B q /\ insertable_node x B q /\
  match q with
  | GRegexp re => forall w v, lang E _ (GRegexp re) (map inl w) v -> ~ In x w
  | _ => True
  end.
Definition closing {A} (g : gram A) (x : T) : Prop := everywhere E (closing_node x) g.

(** literals of one token, no [attempt], and [eof] only behind the grammar; a
    regular expression that has read up to the end of the input is satisfied *)
Definition to_end_node B (q : gram B) : Prop :=
  match q with
  | GAttempt _ | GEof => False
  | GLiteral _ x _ => List.length x = 1
  | GRegexp re => forall before w v, lang E _ (GRegexp re) (map inl w) v ->
      re (before ++ w) (List.length before) = Some (List.length before + List.length w, Some v)
  | _ => True
  end.

(** a budget of [z] insertions in a row (negative: no limit) suffices for [k] *)
Definition enough (z : Z) (k : nat) : Prop := (z < 0)%Z \/ (Z.of_nat k <= z)%Z.
End CloseSpec.
