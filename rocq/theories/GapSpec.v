(** Specification for C77: a part that recover_with can stand in for is missing.

    [gap l g w1 w2 v]: between the tokens [w1] and [w2] a part is missing for
    which the grammar [g] has a recover_with reported as [l]; if its value is
    put there, [v] is the value of the whole.  An optional part or an item of a
    repetition has to be begun before the gap. *)
From Verif Require Export LLSpec.

Section GapSpec.
Context {T : Type} {V : nat -> Type}.
Notation gram := (gram T V).
Variables (E : env T V) (l : string).

Inductive gap : forall A, gram A -> list T -> list T -> A -> Prop :=
| gp_here A (p : gram A) v : viable E p [] -> ~ nullable E p -> gap A (GRecoverWith p v l) [] [] v
| gp_here_fn A (p : gram A) fn lab v : viable E p [] -> ~ nullable E p -> (forall s i, fn s i = Ret v) -> lab v = l ->
    gap A (GRecoverWithFn p fn lab) [] [] v
| gp_fmap A B (p : gram A) (f : A -> out B) w1 w2 v v' : gap A p w1 w2 v -> f v = Ret v' -> gap B (GFmap p f) w1 w2 v'
| gp_alt_l A (p q : gram A) w1 w2 v : gap A p w1 w2 v -> w1 <> [] \/ ~ nullable E q -> gap A (GAlt p q) w1 w2 v
| gp_alt_r A (p q : gram A) w1 w2 v : gap A q w1 w2 v -> gap A (GAlt p q) w1 w2 v
| gp_bind_l A B (p : gram A) (f : A -> gram B) w1 w2 v u w v' : gap A p w1 w2 v -> sentence E p u v -> sentence E (f v) w v' ->
    gap B (GBind p f) w1 (w2 ++ w) v'
| gp_bind_r A B (p : gram A) (f : A -> gram B) w v w1 w2 v' : sentence E p w v -> gap B (f v) w1 w2 v' ->
    gap B (GBind p f) (w ++ w1) w2 v'
| gp_seq_l A B C (p : gram A) (q : gram B) (merge : A -> B -> C) w1 w2 v w v' : gap A p w1 w2 v -> sentence E q w v' ->
    gap C (GSeq p q merge) w1 (w2 ++ w) (merge v v')
| gp_seq_r A B C (p : gram A) (q : gram B) (merge : A -> B -> C) w v w1 w2 v' : sentence E p w v -> gap B q w1 w2 v' ->
    gap C (GSeq p q merge) (w ++ w1) w2 (merge v v')
| gp_maybe A (p : gram A) w1 w2 v : w1 <> [] -> gap A p w1 w2 v -> gap _ (GMaybe p) w1 w2 (Some v)
| gp_many_here A (p : gram A) w1 w2 v w vs : w1 <> [] -> gap A p w1 w2 v -> sentence E (GMany p) w vs ->
    gap _ (GMany p) w1 (w2 ++ w) (v :: vs)
| gp_many_next A (p : gram A) w v w1 w2 vs : sentence E p w v -> gap _ (GMany p) w1 w2 vs ->
    gap _ (GMany p) (w ++ w1) w2 (v :: vs)
| gp_label A (p : gram A) x w1 w2 v : gap A p w1 w2 v -> gap A (GLabel p x) w1 w2 v
| gp_recover A (p : gram A) w1 w2 v : gap A p w1 w2 v -> gap A (GRecover p) w1 w2 v
| gp_with A (p : gram A) x lb w1 w2 v : gap A p w1 w2 v -> gap A (GRecoverWith p x lb) w1 w2 v
| gp_withfn A (p : gram A) fn lab w1 w2 v : gap A p w1 w2 v -> gap A (GRecoverWithFn p fn lab) w1 w2 v
| gp_delay d w1 w2 v : gap (V d) (E d) w1 w2 v -> gap (V d) (GDelay d) w1 w2 v.
End GapSpec.
