(** How many parse functions a plain parse calls, and how deeply the calls
    nest: specification, by rules over the outcomes of the parts ([diag]).

    A call of the parse function of a combinator counts one; it calls the
    function of its first part, and that of its second part if the outcome of
    the first one makes it go on.  [recover], [recover_with] and
    [recover_with_fn] are not there at all without recovery.  The numbers of
    calls made one after the other are put together by [op]: [Nat.add] gives
    the number of all calls, [Nat.max] how many are active at the same time. *)
From Verif Require Export DiagSpec.

Section Tally.
Context {T : Type} {V : nat -> Type}.
Notation gram := (gram T V).

(** parsers without parts *)
Definition primitive {A} (g : gram A) : Prop :=
  match g with
  | GPure _ | GPureFn _ | GUnexpected _ | GEof | GSatisfy _ | GSym _ _ _
  | GLiteral _ _ _ | GRegexp _ | GUndef => True
  | _ => False
  end.

Variable op : nat -> nat -> nat.
Variable E : env T V.
Variable s : list T.
Variable at_ : nat -> loc.
Notation outcome := (diag E s at_).

Inductive tally : forall A, gram A -> Z -> nat -> nat -> Prop :=
| ty_primitive A (g : gram A) m i : primitive g -> tally A g m i 1
| ty_fmap A B (p : gram A) (f : A -> out B) m i k :
    tally A p m i k -> tally B (GFmap p f) m i (S k)
(* the second alternative is tried if the first one fails without consuming *)
| ty_alt_one A (p q : gram A) m i o k :
    outcome A p m i o -> (forall l X, o <> DFail false l X) ->
    tally A p m i k -> tally A (GAlt p q) m i (S k)
| ty_alt_both A (p q : gram A) m i l X a b :
    outcome A p m i (DFail false l X) ->
    tally A p m i a -> tally A q m i b -> tally A (GAlt p q) m i (S (op a b))
(* the second part is run if the first one succeeds *)
| ty_bind_one A B (p : gram A) (f : A -> gram B) m i o k :
    outcome A p m i o -> (forall v j X, o <> DSucc v j X) ->
    tally A p m i k -> tally B (GBind p f) m i (S k)
| ty_bind_both A B (p : gram A) (f : A -> gram B) m i v j X a b :
    outcome A p m i (DSucc v j X) ->
    tally A p m i a -> tally B (f v) m j b -> tally B (GBind p f) m i (S (op a b))
| ty_seq_one A B C (p : gram A) (q : gram B) (merge : A -> B -> C) m i o k :
    outcome A p m i o -> (forall v j X, o <> DSucc v j X) ->
    tally A p m i k -> tally C (GSeq p q merge) m i (S k)
| ty_seq_both A B C (p : gram A) (q : gram B) (merge : A -> B -> C) m i v j X a b :
    outcome A p m i (DSucc v j X) ->
    tally A p m i a -> tally B q m j b -> tally C (GSeq p q merge) m i (S (op a b))
| ty_maybe A (p : gram A) m i k : tally A p m i k -> tally _ (GMaybe p) m i (S k)
(* [many] is one call: its loop calls the part until this does not consume *)
| ty_many_last A (p : gram A) m i o k :
    outcome A p m i o -> (forall v j X, o = DSucc v j X -> ~ i < j) ->
    tally A p m i k -> tally _ (GMany p) m i (S k)
| ty_many_more A (p : gram A) m i v j X a b :
    outcome A p m i (DSucc v j X) -> i < j ->
    tally A p m i a -> tally _ (GMany p) m j (S b) -> tally _ (GMany p) m i (S (op a b))
| ty_attempt A (p : gram A) m i k : tally A p m i k -> tally A (GAttempt p) m i (S k)
| ty_label A (p : gram A) x m i k : tally A p m i k -> tally A (GLabel p x) m i (S k)
| ty_recover A (p : gram A) m i k : tally A p m i k -> tally A (GRecover p) m i k
| ty_with A (p : gram A) x l m i k : tally A p m i k -> tally A (GRecoverWith p x l) m i k
| ty_withfn A (p : gram A) fn lab m i k : tally A p m i k -> tally A (GRecoverWithFn p fn lab) m i k
(* layout: the column is tested before the part is called *)
| ty_block A (p : gram A) m i k : tally A p (loc_col (at_ i)) i k -> tally A (GBlock p) m i (S k)
| ty_aligned A (p : gram A) m i k : loc_col (at_ i) = m ->
    tally A p m i k -> tally A (GAligned p) m i (S k)
| ty_aligned_no A (p : gram A) m i : loc_col (at_ i) <> m -> tally A (GAligned p) m i 1
| ty_indented A delta (p : gram A) m i k : loc_col (at_ i) = (m + delta)%Z ->
    tally A p (loc_col (at_ i)) i k -> tally A (GIndented delta p) m i (S k)
| ty_indented_no A delta (p : gram A) m i : loc_col (at_ i) <> (m + delta)%Z ->
    tally A (GIndented delta p) m i 1
(* a forward reference calls the function it stands for *)
| ty_delay d m i k : tally (V d) (E d) m i k -> tally (V d) (GDelay d) m i (S k).
End Tally.
