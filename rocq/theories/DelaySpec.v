(** Histories of Delay definitions and object constructions: specification. *)
From Verif Require Export Delay.

Section DelaySpec.
Context {T : Type} {V : nat -> Type}.
Notation gram := (gram T V).
Notation pobj := (pobj T V).

(** A call [d.define(o)], where [written] is the expression that the program
    text gives for [o]: Delays occur in it by name ([GDelay]). *)
Inductive event : Type := Define (d : nat) (o : pobj (V d)) (written : gram (V d)).
(** the define calls made so far, latest first *)
Definition history : Type := list event.

Definition ev_delay (e : event) : nat := match e with Define d _ _ => d end.
Definition defined_in (h : history) (d : nat) : bool :=
  existsb (fun e => Nat.eqb (ev_delay e) d) h.

(** the state reached by the code *)
Fixpoint state_of (h : history) : dstate T V :=
  match h with
  | [] => ds_init
  | Define d o _ :: h => fst (define (state_of h) d o)
  end.

(** the definitions as written: the first one for each Delay counts *)
Fixpoint written_env (h : history) : env T V :=
  match h with
  | [] => fun _ => GUndef
  | Define d _ w :: h => if defined_in h d then written_env h else upd (written_env h) d w
  end.

Definition is_bind {A} (g : gram A) : Prop := match g with GBind _ _ => True | _ => False end.

(** [built h o w]: after the define calls [h], the program can hold the object
    [o] that it built by evaluating the expression [w].  A combinator captures
    [to_fns] of its arguments at the time it is called; the objects returned by
    the callback of [bind] are called through their methods. *)
Inductive built : history -> forall A, pobj A -> gram A -> Prop :=
| bt_delay h d : built h (V d) (ODelay d) (GDelay d)
| bt_comb h A (g w : gram A) : ~ is_bind g ->
    alike (fun B p v => exists o, built h B o v /\ p = to_fns (state_of h) o) A g w ->
    built h A (OFns g) w
| bt_bind h A B (o : pobj A) (v : gram A) (f : A -> pobj B) (w : A -> gram B) :
    built h A o v -> (forall x, built h B (f x) (w x)) ->
    built h B (OFns (GBind (to_fns (state_of h) o) (fun x => methods (f x)))) (GBind v w)
| bt_later e h A (o : pobj A) (w : gram A) : built h A o w -> built (e :: h) A o w.

Definition is_delay (d : nat) {A} (o : pobj A) : Prop :=
  match o with ODelay d' => d' = d | OFns _ => False end.

(** each first [define] call for a Delay got an object built before, and not the
    Delay itself ([d.define(d)]); further calls may get anything *)
Fixpoint valid (h : history) : Prop :=
  match h with
  | [] => True
  | Define d o w :: h => valid h /\ (defined_in h d = false -> built h (V d) o w /\ ~ is_delay d o)
  end.

End DelaySpec.
Arguments event T V : clear implicits.
Arguments history T V : clear implicits.
