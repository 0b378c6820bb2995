(** Specification for C75: tokens that are forgotten or typed too much.

    A token is _apart_ in a grammar if it only ever joins or closes what was
    started by other tokens: it begins no alternative and no optional or
    repeated part (closing brackets, the colon between key and value, the
    semicolon that ends a statement). *)
From Verif Require Export LLSpec.

Section MissSpec.
Context {T : Type} {V : nat -> Type}.
Notation gram := (gram T V).
Variable E : env T V.

Definition apart_node (x : T) B (q : gram B) : Prop :=
  match q with
  | GAlt p q => ~ first E p x /\ ~ first E q x
  | GMaybe p => ~ first E p x
  | GMany p => ~ first E p x
  | _ => True
  end.
(** [eof] is not used inside (it is used once, behind the grammar) *)
Definition eof_free_node B (q : gram B) : Prop := match q with GEof => False | _ => True end.

(** Where the parser accepts [x], it waits for exactly this token ([sym], or
    [literal] with one token), so it can insert it.  ([==] of tokens may ignore
    a part of them, such as positions: [x] is the token as it is written in the
    grammar.) *)
Definition insertable_node (x : T) B (q : gram B) : Prop :=
  match q with
  | GSatisfy test => test x <> Ret true
  | GSym teq z _ => teq x z = true -> z = x
  | GLiteral teq zs _ => forall z, zs = [z] -> teq x z = true -> z = x
  | _ => True
  end.

(** what follows is noticed at once: no sentence begins with [w] and the next token *)
Definition noticed {A} (g : gram A) (w rest : list T) : Prop :=
  match rest with [] => True | t :: _ => ~ viable E g (w ++ [t]) end.
End MissSpec.
