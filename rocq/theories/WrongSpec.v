(** Specification for C81: one token is mistyped.

    [firm y g]: a sentence of [g] that begins with [y] is read by parsers that
    have to be there: none of them is optional, repeated, or an alternative to
    something empty.  (So a parser that has reached [g] waits for such a token.) *)
From Verif Require Export MissSpec.

Section WrongSpec.
Context {T : Type} {V : nat -> Type}.
Notation gram := (gram T V).
Variable E : env T V.
Variable y : T.

Inductive firm : forall A, gram A -> Prop :=
| firm_none A (g : gram A) : ~ first E g y -> firm A g
| firm_sat test : firm T (GSatisfy test)
| firm_sym teq x l : firm T (GSym teq x l)
| firm_lit teq x l : firm (list T) (GLiteral teq x l)
| firm_fmap A B (p : gram A) (f : A -> out B) : firm A p -> firm B (GFmap p f)
| firm_alt A (p q : gram A) : firm A p -> firm A q -> ~ nullable E q -> firm A (GAlt p q)
| firm_bind A B (p : gram A) (f : A -> gram B) : firm A p -> (forall v, sentence E p [] v -> firm B (f v)) -> firm B (GBind p f)
| firm_seq A B C (p : gram A) (q : gram B) (f : A -> B -> C) : firm A p -> (nullable E p -> firm B q) -> firm C (GSeq p q f)
| firm_label A (p : gram A) l : firm A p -> firm A (GLabel p l)
| firm_recover A (p : gram A) : firm A p -> firm A (GRecover p)
| firm_with A (p : gram A) x l : firm A p -> firm A (GRecoverWith p x l)
| firm_withfn A (p : gram A) fn l : firm A p -> firm A (GRecoverWithFn p fn l)
| firm_delay d : firm (V d) (E d) -> firm (V d) (GDelay d).

(** [x] can be the last token of [p] *)
Definition ends {A} (p : gram A) (x : T) : Prop := exists w v, sentence E p (w ++ [x]) v.

(** what comes directly after an [x] and begins with [y] has to be there *)
Definition firm_after_node (x : T) B (q : gram B) : Prop :=
  match q with
  | GSeq p q _ => ends p x -> firm _ q
  | GBind p f => forall w v, sentence E p (w ++ [x]) v -> firm _ (f v)
  | GMany p => ends p x -> ~ first E p y
  | _ => True
  end.
End WrongSpec.
Arguments firm {T V} E y {A}.
