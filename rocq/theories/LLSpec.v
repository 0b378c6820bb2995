(** Specification notions for the classical theory of predictive parsing:
    sentences, viable prefixes, FIRST sets, LL(1) grammars.  They are defined
    from the language of the grammar ([lang], Spec.v) alone: nothing here
    mentions how a parser runs. *)
From Verif Require Export TermSpec ApiSpec.

Section LLSpec.
Context {T : Type} {V : nat -> Type}.
Notation gram := (gram T V).
Variable E : env T V.

(** [w] (tokens only, no placeholder) is a sentence of [g], with value [v] *)
Definition sentence {A} (g : gram A) (w : list T) (v : A) : Prop :=
  lang E A g (map inl w) v.

(** [w] is the beginning of some sentence *)
Definition viable {A} (g : gram A) (w : list T) : Prop :=
  exists w' v, sentence g (w ++ w') v.

Definition nullable {A} (g : gram A) : Prop := exists v, sentence g [] v.
(** [t] is the first token of some sentence *)
Definition first {A} (g : gram A) (t : T) : Prop := exists w v, sentence g (t :: w) v.

(** Once a sentence of the first part was read, the sentence can be completed:
    no parser of the grammar is useless.  ([fmap] callbacks return a value on
    what their argument can produce.) *)
Definition completable_node B (q : gram B) : Prop :=
  match q with
  | GFmap p f => forall w v, sentence p w v -> returns (f v)
  | GSeq _ p _ => exists w v, sentence p w v
  | GBind p f => forall w v, sentence p w v -> exists w' v', sentence (f v) w' v'
  | _ => True
  end.

(** What can come next is described by a set of tokens or end of input
    ([None]).  [first_is g o]: a nonempty sentence of [g] starts with [o];
    [starts g K o]: a sentence of [g] followed by something that starts in [K]
    starts with [o]. *)
Definition first_is {A} (g : gram A) (o : option T) : Prop :=
  match o with Some t => first g t | None => False end.
Definition starts {A} (g : gram A) (K : option T -> Prop) (o : option T) : Prop :=
  first_is g o \/ (nullable g /\ K o).
Definition disjoint (P Q : option T -> Prop) : Prop := forall o, P o -> Q o -> False.

(** [ll1 F g K]: [g], followed by input that starts in [K], can be parsed by
    looking at one token: alternatives start differently, and an optional or
    repeated part starts differently from what follows.  [F d] is what may
    follow the Delay [d] (its FOLLOW set).  A regular expression must read
    exactly its own match whatever follows; layout is excluded. *)
Fixpoint ll1 (F : nat -> option T -> Prop) {A} (g : gram A) (K : option T -> Prop) : Prop :=
  match g in Grammar.gram _ _ A return Prop with
  | GPure _ | GPureFn _ | GUnexpected _ | GSatisfy _ | GSym _ _ _ | GLiteral _ _ _ => True
  | GEof => forall o, K o -> o = None
  | GRegexp re => forall before w rest v,
      lang E _ (GRegexp re) (map inl w) v -> K (hd_error rest) ->
      re (before ++ w ++ rest) (List.length before) =
        Some (List.length before + List.length w, Some v)
  | GFmap p _ => ll1 F p K
  | GAlt p q => ll1 F p K /\ ll1 F q K /\ ~ nullable p /\ disjoint (first_is p) (starts q K)
  | GBind p f =>
      ll1 F p (fun o => exists w v, sentence p w v /\ starts (f v) K o) /\
      forall w v, sentence p w v -> ll1 F (f v) K
  | GSeq p q _ => ll1 F p (starts q K) /\ ll1 F q K
  | GMaybe p => ll1 F p K /\ ~ nullable p /\ disjoint (first_is p) K
  | GMany p => ll1 F p (fun o => first_is p o \/ K o) /\ ~ nullable p /\ disjoint (first_is p) K
  | GAttempt p => ll1 F p K
  | GLabel p _ => ll1 F p K
  | GRecover p => ll1 F p K
  | GRecoverWith p _ _ => ll1 F p K
  | GRecoverWithFn p _ _ => ll1 F p K
  | GBlock _ | GAligned _ | GIndented _ _ => False
  | GDelay d => forall o, K o -> F d o
  | GUndef => True
  end.

(** an LL(1) parser [p], to be used on whole inputs *)
Definition LL1 {A} (g : gram A) : Prop :=
  exists F, ll1 F g (fun o => o = None) /\ forall d, ll1 F (E d) (F d).

(** one token of lookahead: no [attempt], no regular expressions, literals of
    one token *)
Definition one_token_node B (q : gram B) : Prop :=
  match q with
  | GAttempt _ | GRegexp _ => False
  | GLiteral _ x _ => List.length x = 1
  | _ => True
  end.

(** Regular expressions are allowed too if what they match is decided by the
    match and the token behind it, and a failure by the next token. *)
Definition decided_re {A} (re : list T -> nat -> option (nat * option A)) : Prop := forall s s' i, i <= List.length s ->
  (forall e v, re s i = Some (e, Some v) ->
     (forall k, k <= e -> nth_error s' k = nth_error s k) -> re s' i = Some (e, Some v)) /\
  ((forall e v, re s i <> Some (e, Some v)) ->
     nth_error s' i = nth_error s i -> (forall k, k < i -> nth_error s' k = nth_error s k) ->
     forall e v, re s' i <> Some (e, Some v)).
Definition next_token_node B (q : gram B) : Prop :=
  match q with
  | GAttempt _ => False
  | GRegexp re => decided_re re
  | GLiteral _ x _ => List.length x = 1
  | _ => True
  end.

End LLSpec.
