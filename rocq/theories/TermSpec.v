(** Termination and absence of exceptions: specification.  Only the grammar
    type, its language and the callbacks are mentioned. *)
From Verif Require Export Spec.

Section TermSpec.
Context {T : Type} {V : nat -> Type}.
Notation gram := (gram T V).
Variable E : env T V.

(** [P] holds of every parser that [g] is made of, through Delays and through
    the parsers that [bind] callbacks return *)
Definition everywhere (P : forall B, gram B -> Prop) {A} (g : gram A) : Prop :=
  forall B (q : gram B), occurs E q A g -> P B q.

(** a Python call that comes back (with a value or an exception) *)
Definition halts {A} (x : out A) : Prop := x <> NoFuel.
(** ... with a value *)
Definition returns {A} (x : out A) : Prop := exists v, x = Ret v.

(** the callbacks of one parser halt; [fmap] callbacks are only asked about
    values that their argument can produce *)
Definition halting_node B (q : gram B) : Prop :=
  match q with
  | GPureFn f => halts (f tt)
  | GSatisfy test => forall t, halts (test t)
  | GFmap p f => forall w v, lang E _ p w v -> halts (f v)
  | GRecoverWithFn _ fn _ => forall s i, halts (fn s i)
  | _ => True
  end.
(** no callback raises or diverges, [many] is not applied to a parser that
    accepts the empty word, the parser is not an undefined Delay *)
Definition quiet_node B (q : gram B) : Prop :=
  match q with
  | GPureFn f => returns (f tt)
  | GSatisfy test => forall t, returns (test t)
  | GFmap p f => forall w v, lang E _ p w v -> returns (f v)
  | GRecoverWithFn _ fn _ => forall s i, returns (fn s i)
  | GMany p => forall v, ~ lang E _ p [] v
  | GUndef => False
  | _ => True
  end.

(** [lcall g d]: [g] can call Delay [d] at the position where it starts: on the
    way to it only parsers that accept the empty word are passed *)
Inductive lcall : forall A, gram A -> nat -> Prop :=
| hd_delay d : lcall (V d) (GDelay d) d
| hd_fmap A B (p : gram A) (f : A -> out B) d : lcall A p d -> lcall B (GFmap p f) d
| hd_alt_l A (p q : gram A) d : lcall A p d -> lcall A (GAlt p q) d
| hd_alt_r A (p q : gram A) d : lcall A q d -> lcall A (GAlt p q) d
| hd_bind_l A B (p : gram A) (f : A -> gram B) d : lcall A p d -> lcall B (GBind p f) d
| hd_bind_r A B (p : gram A) (f : A -> gram B) v d :
    lang E A p [] v -> lcall B (f v) d -> lcall B (GBind p f) d
| hd_seq_l A B C (p : gram A) (q : gram B) (merge : A -> B -> C) d :
    lcall A p d -> lcall C (GSeq p q merge) d
| hd_seq_r A B C (p : gram A) (q : gram B) (merge : A -> B -> C) v d :
    lang E A p [] v -> lcall B q d -> lcall C (GSeq p q merge) d
| hd_maybe A (p : gram A) d : lcall A p d -> lcall _ (GMaybe p) d
| hd_many A (p : gram A) d : lcall A p d -> lcall _ (GMany p) d
| hd_attempt A (p : gram A) d : lcall A p d -> lcall A (GAttempt p) d
| hd_label A (p : gram A) x d : lcall A p d -> lcall A (GLabel p x) d
| hd_recover A (p : gram A) d : lcall A p d -> lcall A (GRecover p) d
| hd_with A (p : gram A) x l d : lcall A p d -> lcall A (GRecoverWith p x l) d
| hd_withfn A (p : gram A) fn lab d : lcall A p d -> lcall A (GRecoverWithFn p fn lab) d
| hd_block A (p : gram A) d : lcall A p d -> lcall A (GBlock p) d
| hd_aligned A (p : gram A) d : lcall A p d -> lcall A (GAligned p) d
| hd_indented A delta (p : gram A) d : lcall A p d -> lcall A (GIndented delta p) d.

(** No left recursion: following [lcall] from Delay to Delay ends, whatever
    Delay of the grammar one starts from. *)
Definition guarded {A} (g : gram A) : Prop :=
  forall d, occurs E (GDelay d) A g ->
    Acc (fun d' d => lcall (V d) (E d) d') d.

(** no Delay at all *)
Definition no_delay {A} (g : gram A) : Prop :=
  gall (fun B q => match q with GDelay _ => False | _ => True end) g.

End TermSpec.
