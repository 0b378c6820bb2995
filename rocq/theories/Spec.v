(** Specification notions used to state the properties.  Nothing here refers
    to the parse functions of the model: only to the grammar type (the parser
    objects a user builds), streams, locations and repair operations. *)
From Verif Require Export Grammar.

Section Spec.
Context {T : Type} {V : nat -> Type}.
Notation gram := (gram T V).
Notation env := (env T V).

(** [gall P g]: [P] holds of [g] and of every parser inside it (for [bind],
    of every parser the callback can return).  Delays are not entered. *)
Fixpoint gall (P : forall A, gram A -> Prop) {A} (g : gram A) : Prop :=
  P A g /\
  match g with
  | GFmap p _ => gall P p
  | GAlt p q => gall P p /\ gall P q
  | GBind p f => gall P p /\ forall v, gall P (f v)
  | GSeq p q _ => gall P p /\ gall P q
  | GMaybe p => gall P p
  | GMany p => gall P p
  | GAttempt p => gall P p
  | GLabel p _ => gall P p
  | GRecover p => gall P p
  | GRecoverWith p _ _ => gall P p
  | GRecoverWithFn p _ _ => gall P p
  | GBlock p => gall P p
  | GAligned p => gall P p
  | GIndented _ p => gall P p
  | _ => True
  end.

(** Assumptions about the oracles: a match ends inside the stream and not
    before it starts; literals are non-empty (the [literal] constructor
    enforces it, core/scannerless.py:69-70); [==] is reflexive on the symbols
    of the grammar. *)
Definition wf_node A (g : gram A) : Prop :=
  match g with
  | GRegexp m => forall s pos e v, pos <= List.length s ->
      m s pos = Some (e, v) -> pos <= e <= List.length s
  | GLiteral teq x _ => x <> [] /\ forall a, In a x -> teq a a = true
  | GSym teq x _ => teq x x = true
  | _ => True
  end.
Definition wf {A} (g : gram A) : Prop := gall wf_node g.
Definition wf_env (E : env) : Prop := forall d, wf (E d).

Definition is_layout A (g : gram A) : Prop :=
  match g with GBlock _ | GAligned _ | GIndented _ _ => True | _ => False end.
Definition is_attempt A (g : gram A) : Prop :=
  match g with GAttempt _ => True | _ => False end.
Definition no_layout {A} (g : gram A) : Prop := gall (fun A g => ~ is_layout A g) g.
Definition no_attempt {A} (g : gram A) : Prop := gall (fun A g => ~ is_attempt A g) g.

(** ** Locations *)

(** [get] computes, for the stream [s], locations that depend on the position
    only: [locof p] is the location of position [p]. *)
Record cohere (get : loc -> list T -> nat -> loc) (s : list T)
    (locof : nat -> loc) : Prop := {
  co_init : forall q, q <= List.length s -> get (Loc 0 0 0) s q = locof q;
  co_step : forall p q, p <= q <= List.length s -> get (locof p) s q = locof q
}.
(** ... and their [pos] field is that position *)
Definition exactpos (s : list T) (locof : nat -> loc) : Prop :=
  locof 0 = Loc 0 0 0 /\
  forall p, p <= List.length s -> loc_pos (locof p) = Z.of_nat p.

(** the text [x] stands in [s] at position [i]; [teq t a] compares a token of
    the stream with one of [x] *)
Fixpoint begins_with (teq : T -> T -> bool) (x s : list T) : bool :=
  match x, s with
  | [], _ => true
  | a :: x, t :: s => teq t a && begins_with teq x s
  | _ :: _, [] => false
  end.
Definition stands_at (teq : T -> T -> bool) (x s : list T) (i : nat) : bool :=
  begins_with teq x (skipn i s).

(** ** Edit derivations.
    [ederiv E s col g m i j ops v]: parser [g] with column mark [m] can read
    the stream [s] from position [i] to position [j], with value [v], if the
    operations [ops] (with the positions where they apply) are performed on
    the stream; choice is unordered, repetition may stop at any time.  With
    [ops = []] this is a plain derivation.  [col i z] says that [z] is the
    column of position [i]. *)
Inductive ederiv (E : env) (s : list T) (col : nat -> Z -> Prop)
  : forall A, gram A -> Z -> nat -> nat -> list (rop * nat) -> A -> Prop :=
| ed_pure A (x : A) m i : ederiv E s col A (GPure x) m i i [] x
| ed_purefn A (f : unit -> out A) v m i :
    f tt = Ret v -> ederiv E s col A (GPureFn f) m i i [] v
| ed_eof m : ederiv E s col unit GEof m (List.length s) (List.length s) [] tt
| ed_eof_skip m i : i < List.length s ->
    ederiv E s col unit GEof m i (List.length s)
      [(Skip (List.length s - i), i)] tt
| ed_sat test t m i :
    nth_error s i = Some t -> test t = Ret true ->
    ederiv E s col T (GSatisfy test) m i (i + 1) [] t
| ed_sat_skip test t m i k :
    i < k -> nth_error s k = Some t -> test t = Ret true ->
    ederiv E s col T (GSatisfy test) m i (k + 1) [(Skip (k - i), i)] t
| ed_sym teq x l t m i :
    nth_error s i = Some t -> teq t x = true ->
    ederiv E s col T (GSym teq x l) m i (i + 1) [] t
| ed_sym_skip teq x l t m i k :
    i < k -> nth_error s k = Some t -> teq t x = true ->
    ederiv E s col T (GSym teq x l) m i (k + 1) [(Skip (k - i), i)] t
| ed_sym_ins teq x l m i :
    ederiv E s col T (GSym teq x l) m i i [(Insert l, i)] x
| ed_lit teq x l m i :
    i <= List.length s -> stands_at teq x s i = true ->
    ederiv E s col (list T) (GLiteral teq x l) m i (i + List.length x) [] x
| ed_lit_skip teq x l m i k :
    i < k -> k <= List.length s -> stands_at teq x s k = true ->
    ederiv E s col (list T) (GLiteral teq x l) m i (k + List.length x)
      [(Skip (k - i), i)] x
| ed_lit_ins teq x l m i :
    ederiv E s col (list T) (GLiteral teq x l) m i i [(Insert l, i)] x
| ed_re A (re : list T -> nat -> option (nat * option A)) e v m i :
    i <= List.length s -> re s i = Some (e, Some v) ->
    ederiv E s col A (GRegexp re) m i e [] v
| ed_re_skip A (re : list T -> nat -> option (nat * option A)) e v m i k :
    i < k -> k <= List.length s -> re s k = Some (e, Some v) ->
    ederiv E s col A (GRegexp re) m i e [(Skip (k - i), i)] v
| ed_fmap A B (p : gram A) (f : A -> out B) m i j ops v w :
    ederiv E s col A p m i j ops v -> f v = Ret w ->
    ederiv E s col B (GFmap p f) m i j ops w
| ed_alt_l A (p q : gram A) m i j ops v :
    ederiv E s col A p m i j ops v -> ederiv E s col A (GAlt p q) m i j ops v
| ed_alt_r A (p q : gram A) m i j ops v :
    ederiv E s col A q m i j ops v -> ederiv E s col A (GAlt p q) m i j ops v
| ed_bind A B (p : gram A) (f : A -> gram B) m i j k ops1 ops2 v w :
    ederiv E s col A p m i j ops1 v -> ederiv E s col B (f v) m j k ops2 w ->
    ederiv E s col B (GBind p f) m i k (ops1 ++ ops2) w
| ed_seq A B C (p : gram A) (q : gram B) (merge : A -> B -> C) m i j k ops1 ops2 v w :
    ederiv E s col A p m i j ops1 v -> ederiv E s col B q m j k ops2 w ->
    ederiv E s col C (GSeq p q merge) m i k (ops1 ++ ops2) (merge v w)
| ed_maybe_none A (p : gram A) m i : ederiv E s col _ (GMaybe p) m i i [] None
| ed_maybe_some A (p : gram A) m i j ops v :
    ederiv E s col A p m i j ops v ->
    ederiv E s col _ (GMaybe p) m i j ops (Some v)
| ed_many_nil A (p : gram A) m i : ederiv E s col _ (GMany p) m i i [] []
| ed_many_cons A (p : gram A) m i j k ops1 ops2 v l :
    ederiv E s col A p m i j ops1 v -> ederiv E s col _ (GMany p) m j k ops2 l ->
    ederiv E s col _ (GMany p) m i k (ops1 ++ ops2) (v :: l)
| ed_attempt A (p : gram A) m i j ops v :
    ederiv E s col A p m i j ops v -> ederiv E s col A (GAttempt p) m i j ops v
| ed_label A (p : gram A) x m i j ops v :
    ederiv E s col A p m i j ops v -> ederiv E s col A (GLabel p x) m i j ops v
| ed_recover A (p : gram A) m i j ops v :
    ederiv E s col A p m i j ops v -> ederiv E s col A (GRecover p) m i j ops v
| ed_with A (p : gram A) x l m i j ops v :
    ederiv E s col A p m i j ops v ->
    ederiv E s col A (GRecoverWith p x l) m i j ops v
| ed_with_ins A (p : gram A) x l m i :
    ederiv E s col A (GRecoverWith p x l) m i i [(Insert l, i)] x
| ed_withfn A (p : gram A) fn lab m i j ops v :
    ederiv E s col A p m i j ops v ->
    ederiv E s col A (GRecoverWithFn p fn lab) m i j ops v
| ed_withfn_ins A (p : gram A) fn lab x m i :
    fn s i = Ret x ->
    ederiv E s col A (GRecoverWithFn p fn lab) m i i [(Insert (lab x), i)] x
| ed_block A (p : gram A) m m' i j ops v :
    col i m' -> ederiv E s col A p m' i j ops v ->
    ederiv E s col A (GBlock p) m i j ops v
| ed_aligned A (p : gram A) m i j ops v :
    col i m -> ederiv E s col A p m i j ops v ->
    ederiv E s col A (GAligned p) m i j ops v
| ed_indented A delta (p : gram A) m i j ops v :
    col i (m + delta)%Z -> ederiv E s col A p (m + delta) i j ops v ->
    ederiv E s col A (GIndented delta p) m i j ops v
| ed_delay d m i j ops v :
    ederiv E s col (V d) (E d) m i j ops v ->
    ederiv E s col (V d) (GDelay d) m i j ops v.

(** ** The language of a grammar, over words of tokens and placeholders
    ([inr l]: the value of a [recover_with] labelled [l]).  Context-free
    reading: unordered choice, no look-ahead, layout guards and [eof] ignored;
    a regular expression derives the words it matches in some context. *)
Definition word : Type := list (T + string).

Inductive lang (E : env) : forall A, gram A -> word -> A -> Prop :=
| la_pure A (x : A) : lang E A (GPure x) [] x
| la_purefn A (f : unit -> out A) v : f tt = Ret v -> lang E A (GPureFn f) [] v
| la_eof : lang E unit GEof [] tt
| la_sat test t : test t = Ret true -> lang E T (GSatisfy test) [inl t] t
| la_sym teq x l t : teq t x = true -> lang E T (GSym teq x l) [inl t] t
| la_lit teq x l w :
    Forall2 (fun a b => teq a b = true) w x ->
    lang E (list T) (GLiteral teq x l) (map inl w) x
| la_re A (re : list T -> nat -> option (nat * option A)) s i e v :
    re s i = Some (e, Some v) ->
    lang E A (GRegexp re) (map inl (firstn (e - i) (skipn i s))) v
| la_fmap A B (p : gram A) (f : A -> out B) w v v' :
    lang E A p w v -> f v = Ret v' -> lang E B (GFmap p f) w v'
| la_alt_l A (p q : gram A) w v : lang E A p w v -> lang E A (GAlt p q) w v
| la_alt_r A (p q : gram A) w v : lang E A q w v -> lang E A (GAlt p q) w v
| la_bind A B (p : gram A) (f : A -> gram B) w1 w2 v v' :
    lang E A p w1 v -> lang E B (f v) w2 v' -> lang E B (GBind p f) (w1 ++ w2) v'
| la_seq A B C (p : gram A) (q : gram B) (merge : A -> B -> C) w1 w2 v v' :
    lang E A p w1 v -> lang E B q w2 v' ->
    lang E C (GSeq p q merge) (w1 ++ w2) (merge v v')
| la_maybe_none A (p : gram A) : lang E _ (GMaybe p) [] None
| la_maybe_some A (p : gram A) w v : lang E A p w v -> lang E _ (GMaybe p) w (Some v)
| la_many_nil A (p : gram A) : lang E _ (GMany p) [] []
| la_many_cons A (p : gram A) w1 w2 v l :
    lang E A p w1 v -> lang E _ (GMany p) w2 l ->
    lang E _ (GMany p) (w1 ++ w2) (v :: l)
| la_attempt A (p : gram A) w v : lang E A p w v -> lang E A (GAttempt p) w v
| la_label A (p : gram A) x w v : lang E A p w v -> lang E A (GLabel p x) w v
| la_recover A (p : gram A) w v : lang E A p w v -> lang E A (GRecover p) w v
| la_with A (p : gram A) x l w v :
    lang E A p w v -> lang E A (GRecoverWith p x l) w v
| la_with_ins A (p : gram A) x l : lang E A (GRecoverWith p x l) [inr l] x
| la_withfn A (p : gram A) fn lab w v :
    lang E A p w v -> lang E A (GRecoverWithFn p fn lab) w v
| la_withfn_ins A (p : gram A) fn lab s i x :
    fn s i = Ret x -> lang E A (GRecoverWithFn p fn lab) [inr (lab x)] x
| la_block A (p : gram A) w v : lang E A p w v -> lang E A (GBlock p) w v
| la_aligned A (p : gram A) w v : lang E A p w v -> lang E A (GAligned p) w v
| la_indented A delta (p : gram A) w v :
    lang E A p w v -> lang E A (GIndented delta p) w v
| la_delay d w v : lang E (V d) (E d) w v -> lang E (V d) (GDelay d) w v.

(** [occurs E q g]: parser [q] is [g] or part of it (parsers returned by
    [bind] callbacks and definitions of Delays included). *)
Inductive occurs (E : env) {B} (q : gram B) : forall A, gram A -> Prop :=
| oc_refl : occurs E q B q
| oc_fmap A C (p : gram A) (f : A -> out C) : occurs E q A p -> occurs E q C (GFmap p f)
| oc_alt_l A (p p' : gram A) : occurs E q A p -> occurs E q A (GAlt p p')
| oc_alt_r A (p p' : gram A) : occurs E q A p' -> occurs E q A (GAlt p p')
| oc_bind_l A C (p : gram A) (f : A -> gram C) : occurs E q A p -> occurs E q C (GBind p f)
| oc_bind_r A C (p : gram A) (f : A -> gram C) v :
    occurs E q C (f v) -> occurs E q C (GBind p f)
| oc_seq_l A C D (p : gram A) (p' : gram C) (merge : A -> C -> D) :
    occurs E q A p -> occurs E q D (GSeq p p' merge)
| oc_seq_r A C D (p : gram A) (p' : gram C) (merge : A -> C -> D) :
    occurs E q C p' -> occurs E q D (GSeq p p' merge)
| oc_maybe A (p : gram A) : occurs E q A p -> occurs E q _ (GMaybe p)
| oc_many A (p : gram A) : occurs E q A p -> occurs E q _ (GMany p)
| oc_attempt A (p : gram A) : occurs E q A p -> occurs E q A (GAttempt p)
| oc_label A (p : gram A) x : occurs E q A p -> occurs E q A (GLabel p x)
| oc_recover A (p : gram A) : occurs E q A p -> occurs E q A (GRecover p)
| oc_with A (p : gram A) x l : occurs E q A p -> occurs E q A (GRecoverWith p x l)
| oc_withfn A (p : gram A) fn lab : occurs E q A p -> occurs E q A (GRecoverWithFn p fn lab)
| oc_block A (p : gram A) : occurs E q A p -> occurs E q A (GBlock p)
| oc_aligned A (p : gram A) : occurs E q A p -> occurs E q A (GAligned p)
| oc_indented A delta (p : gram A) : occurs E q A p -> occurs E q A (GIndented delta p)
| oc_delay d : occurs E q (V d) (E d) -> occurs E q (V d) (GDelay d).

(** a parser that can insert the word [w] and report it as [l] *)
Definition insert_node {B} (q : gram B) (l : string) (w : word) : Prop :=
  match q with
  | GSym _ x l' => l = l' /\ w = [inl x]
  | GLiteral _ x l' => l = l' /\ w = map inl x
  | GRecoverWith _ _ l' => l = l' /\ w = [inr l]
  | GRecoverWithFn _ fn lab => exists s i x, fn s i = Ret x /\ l = lab x /\ w = [inr l]
  | _ => False
  end.
(** the grammar [g] contains such a parser *)
Definition inserts (E : env) {A} (g : gram A) (l : string) (w : word) : Prop :=
  exists B (q : gram B), occurs E q A g /\ insert_node q l w.

(** ** Edit scripts *)
Inductive edit : Type :=
| EKeep (t : T)                           (** keep a token *)
| ESkip (ts : list T)                     (** delete tokens *)
| EIns (l : string) (w : word).           (** insert [w], reported as [l] *)

(** what the script reads, what it writes, and the operations it reports
    when applied from position [i] on *)
Definition edit_in (e : edit) : list T :=
  match e with EKeep t => [t] | ESkip ts => ts | EIns _ _ => [] end.
Definition edit_out (e : edit) : word :=
  match e with EKeep t => [inl t] | ESkip _ => [] | EIns _ w => w end.
Definition edits_in (es : list edit) : list T := flat_map edit_in es.
Definition edits_out (es : list edit) : word := flat_map edit_out es.
Fixpoint edits_ops (i : nat) (es : list edit) : list (rop * nat) :=
  match es with
  | [] => []
  | EKeep _ :: es => edits_ops (i + 1) es
  | ESkip ts :: es =>
      (Skip (List.length ts), i) :: edits_ops (i + List.length ts) es
  | EIns l _ :: es => (Insert l, i) :: edits_ops i es
  end.

(** every insertion of the script is one that [g] makes: the inserted word is
    the symbol, literal or placeholder reported *)
Definition edits_from (E : env) {A} (g : gram A) (es : list edit) : Prop :=
  forall l w, In (EIns l w) es -> inserts E g l w.

(** cost of operations: one per inserted symbol or skipped token *)
Definition op_cost (o : rop) : nat :=
  match o with Skip n => n | Insert _ => 1 end.
Definition ops_cost (l : list rop) : nat := list_sum (map op_cost l).

(** operations in order, inside [i, j], skips non-empty and not overlapping *)
Fixpoint ops_sorted (i j : nat) (l : list (rop * nat)) : Prop :=
  match l with
  | [] => i <= j
  | (Skip n, p) :: l => i <= p /\ 1 <= n /\ ops_sorted (p + n) j l
  | (Insert _, p) :: l => i <= p /\ ops_sorted p j l
  end.

End Spec.
Arguments edit T : clear implicits.
Arguments word T : clear implicits.
