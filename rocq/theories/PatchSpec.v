(** When recovery always ends with a value: specification (property C51).

    A static account of how many insertions in a row completing a parser can
    take.  Only the grammar and its language are mentioned. *)
From Verif Require Export FirstSpec.

(** What is asked of a parser in recovery mode:
    - [Soft]: once it has read something it completes;
    - [Clean]: it completes, or fails before reading anything and then offers
      no repair at all;
    - [Firm]: it completes;
    - [Marked]: it completes, and not only by an automatic insertion (only
      skipping and what [recover]/[recover_with] mark also counts when the
      parser is a later alternative of a choice). *)
Inductive level : Type := Soft | Clean | Firm | Marked.

(** How many insertions in a row completing can take: [now], at the place where
    the parser starts (these come on top of those made there before);
    [later], after it has read something. *)
Record need : Type := Need { now : nat; later : nat }.
Definition need_le (a b : need) : Prop := now a <= now b /\ later a <= later b.
(** first one parser, then the other *)
Definition need_seq (a b : need) : need :=
  Need (now a + now b) (Nat.max (later a + now b) (later b)).

Section PatchSpec.
Context {T : Type} {V : nat -> Type}.
Notation gram := (gram T V).
Variable E : env T V.
(** [claim d n l k]: what is assumed about Delay [d]; see [claims_hold] *)
Variable claim : nat -> nat -> level -> need -> Prop.

(** the pattern matches, with its group, at every position *)
Definition always_matches {A} (re : list T -> nat -> option (nat * option A)) : Prop :=
  forall s pos, pos <= List.length s -> exists e v, re s pos = Some (e, Some v).
(** the parser does not accept the empty word *)
Definition eats {A} (p : gram A) : Prop := forall v, ~ lang E A p [] v.

(** [fills n l k g]: started with at most [n] tokens of input left, [g] does
    what level [l] asks for, with the insertions [k]. *)
Fixpoint fills (n : nat) (l : level) (k : need) {A} (g : gram A) : Prop :=
  match g with
  | GPure _ | GPureFn _ | GUndef => True
  (* skips to the end *)
  | GEof => True
  (* nothing to insert *)
  | GUnexpected _ | GSatisfy _ => l = Soft \/ l = Clean
  | GRegexp re => l = Soft \/ l = Clean \/ always_matches re
  (* inserted automatically *)
  | GSym _ _ _ | GLiteral _ _ _ => l = Soft \/ (l <> Marked /\ 1 <= now k)
  | GFmap p _ => fills n l k p
  | GLabel p _ => fills n l k p
  | GAttempt p => fills n l k p
  | GBlock p => fills n l k p
  (* a wrong column is not repaired *)
  | GAligned p => (l = Soft \/ l = Clean) /\ fills n l k p
  | GIndented _ p => (l = Soft \/ l = Clean) /\ fills n l k p
  | GRecover p => fills n (match l with Marked => Firm | _ => l end) k p
  | GAlt p q =>
      exists k1 k2, need_le k1 k /\ need_le k2 k /\
      ((l = Soft /\ fills n Soft k1 p /\ fills n Soft k2 q /\ attempt_free E q) \/
       (l = Clean /\ fills n Clean k1 p /\ fills n Clean k2 q) \/
       ((l = Clean \/ l = Firm) /\ fills n Firm k1 p /\ fills n Soft k2 q) \/
       ((l = Clean \/ l = Firm) /\ fills n Clean k1 p /\ fills n Firm k2 q) \/
       (l <> Soft /\ fills n Marked k1 p /\ fills n Soft k2 q) \/
       (l <> Soft /\ fills n Soft k1 p /\ fills n Marked k2 q /\ attempt_free E q))
  | GBind p f =>
      exists k1 k2, need_le (need_seq k1 k2) k /\
      match l with
      | Soft =>
          fills n Soft k1 p /\ (forall n', n = S n' -> forall v, fills n' Firm k2 (f v)) /\
          (eats p \/ exists k3, later k3 <= later k /\ forall v, fills n Soft k3 (f v))
      | Clean => fills n Clean k1 p /\ forall v, fills n Firm k2 (f v)
      | Firm => fills n Firm k1 p /\ forall v, fills n Firm k2 (f v)
      | Marked =>
          fills n Marked k1 p /\
          ((eats p /\ forall v, fills n Firm k2 (f v)) \/ forall v, fills n Marked k2 (f v))
      end
  | GSeq p q _ =>
      exists k1 k2, need_le (need_seq k1 k2) k /\
      match l with
      | Soft =>
          fills n Soft k1 p /\ (forall n', n = S n' -> fills n' Firm k2 q) /\
          (eats p \/ exists k3, later k3 <= later k /\ fills n Soft k3 q)
      | Clean => fills n Clean k1 p /\ fills n Firm k2 q
      | Firm => fills n Firm k1 p /\ fills n Firm k2 q
      | Marked =>
          fills n Marked k1 p /\ ((eats p /\ fills n Firm k2 q) \/ fills n Marked k2 q)
      end
  (* nothing is required; what was started must be completed *)
  | GMaybe p => exists k', later k' <= later k /\ fills n Soft k' p
  | GMany p => exists k', later k' <= later k /\ fills n Soft k' p
  (* the given value is inserted *)
  | GRecoverWith p _ _ =>
      (exists k', later k' <= later k /\ fills n Soft k' p) /\ (l = Soft \/ 1 <= now k)
  | GRecoverWithFn p _ _ =>
      (exists k', later k' <= later k /\ fills n Soft k' p) /\ (l = Soft \/ 1 <= now k)
  | GDelay d => claim d n l k
  end.

(** what is claimed about the Delays holds of their definitions *)
Definition claims_hold : Prop :=
  forall d n l k, claim d n l k -> fills n l k (E d).

End PatchSpec.

(** [max_insertions=m] is enough for [k] ([m < 0]: no limit) *)
Definition affords (m : Z) (k : need) : Prop :=
  (m < 0)%Z \/ ((Z.of_nat (now k) <= m)%Z /\ (Z.of_nat (later k) <= m)%Z).

(** the parser (with the Delays of [E]), started with at most [n] tokens of
    input, completes with at most [k] insertions in a row *)
Definition completes {T V} (E : env T V) (n : nat) (k : need) {A} (g : gram T V A) : Prop :=
  exists claim, claims_hold E claim /\ fills E claim n Firm k g.
