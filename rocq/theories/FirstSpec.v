(** The first error in both modes: specification. *)
From Verif Require Export TermSpec ApiSpec.

Section FirstSpec.
Context {T : Type} {V : nat -> Type}.
Notation gram := (gram T V).
Variable E : env T V.

Definition is_with B (q : gram B) : Prop :=
  match q with GRecoverWith _ _ _ | GRecoverWithFn _ _ _ => True | _ => False end.

(** [starts_with_with g]: [g] is a [recover_with], or can call one at the
    position where it starts, with no [alt], [label], [maybe] or [many] around
    the call *)
Inductive bare_with : forall A, gram A -> Prop :=
| bw_with A (p : gram A) x l : bare_with A (GRecoverWith p x l)
| bw_withfn A (p : gram A) fn lab : bare_with A (GRecoverWithFn p fn lab)
| bw_fmap A B (p : gram A) (f : A -> out B) : bare_with A p -> bare_with B (GFmap p f)
| bw_bind_l A B (p : gram A) (f : A -> gram B) : bare_with A p -> bare_with B (GBind p f)
| bw_bind_r A B (p : gram A) (f : A -> gram B) v :
    lang E A p [] v -> bare_with B (f v) -> bare_with B (GBind p f)
| bw_seq_l A B C (p : gram A) (q : gram B) (merge : A -> B -> C) :
    bare_with A p -> bare_with C (GSeq p q merge)
| bw_seq_r A B C (p : gram A) (q : gram B) (merge : A -> B -> C) v :
    lang E A p [] v -> bare_with B q -> bare_with C (GSeq p q merge)
| bw_recover A (p : gram A) : bare_with A p -> bare_with A (GRecover p)
| bw_block A (p : gram A) : bare_with A p -> bare_with A (GBlock p)
| bw_aligned A (p : gram A) : bare_with A p -> bare_with A (GAligned p)
| bw_indented A delta (p : gram A) : bare_with A p -> bare_with A (GIndented delta p)
| bw_delay d : bare_with (V d) (E d) -> bare_with (V d) (GDelay d).

(** [recover_with] is not applied to a parser that starts with a bare
    [recover_with] *)
Definition single_with B (q : gram B) : Prop :=
  match q with
  | GRecoverWith p _ _ => ~ bare_with _ p
  | GRecoverWithFn p _ _ => ~ bare_with _ p
  | _ => True
  end.
Definition attempt_free {A} (g : gram A) : Prop :=
  everywhere E (fun B q => ~ is_attempt B q) g.
Definition with_free {A} (g : gram A) : Prop :=
  everywhere E (fun B q => ~ is_with B q) g.
Definition single_withs {A} (g : gram A) : Prop := everywhere E single_with g.

End FirstSpec.

(** the two errors say the same, apart from the repair operation *)
Definition same_error (a b : erroritem) : Prop :=
  ei_loc a = ei_loc b /\ ei_loc_str a = ei_loc_str b /\ ei_expected a = ei_expected b.
