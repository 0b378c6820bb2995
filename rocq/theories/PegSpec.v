(** Declarative big-step semantics of parsing without recovery, as documented:
    sequencing, committed choice, greedy repetition, optional parts,
    backtracking with [attempt], layout guards.  It knows nothing about
    contexts, expected values, fuel or flags: a parser run at position [i] with
    column mark [m] yields a value and an end position, a failure (which says
    whether input was consumed before it), or an exception.  [col i] is the
    column of position [i]. *)
From Verif Require Export Spec.

Inductive pres (A : Type) : Type :=
| PSucc (v : A) (j : nat)
| PFail (committed : bool)
| PExn (e : exn).
Arguments PSucc {A}. Arguments PFail {A}. Arguments PExn {A}.

(** what happens after the value [v] was read and before the rest started at
    [j]: a failure of the rest counts as committed if input was consumed *)
Definition after {A} (i j : nat) (o : pres A) : pres A :=
  match o with PFail b => PFail (b || Nat.ltb i j) | o => o end.
Definition on_value {A B} (f : A -> B) (o : pres A) : pres B :=
  match o with PSucc v j => PSucc (f v) j | PFail b => PFail b | PExn e => PExn e end.

Section Peg.
Context {T : Type} {V : nat -> Type}.
Notation gram := (gram T V).

(** a regular expression [re] matches at [i] (with the group not None) *)
Definition re_matches {A} (re : list T -> nat -> option (nat * option A))
    (s : list T) (i : nat) : Prop := exists e v, re s i = Some (e, Some v).

Inductive peg (E : env T V) (s : list T) (col : nat -> Z)
  : forall A, gram A -> Z -> nat -> pres A -> Prop :=
(* primitives *)
| pg_pure A (x : A) m i : peg E s col A (GPure x) m i (PSucc x i)
| pg_purefn A (f : unit -> out A) v m i :
    f tt = Ret v -> peg E s col A (GPureFn f) m i (PSucc v i)
| pg_purefn_exn A (f : unit -> out A) e m i :
    f tt = Raise e -> peg E s col A (GPureFn f) m i (PExn e)
| pg_unexpected A l m i : peg E s col A (GUnexpected l) m i (PFail false)
| pg_eof m : peg E s col unit GEof m (List.length s) (PSucc tt (List.length s))
| pg_eof_fail m i : i <> List.length s -> peg E s col unit GEof m i (PFail false)
| pg_sat test t m i : nth_error s i = Some t -> test t = Ret true ->
    peg E s col T (GSatisfy test) m i (PSucc t (i + 1))
| pg_sat_no test t m i : nth_error s i = Some t -> test t = Ret false ->
    peg E s col T (GSatisfy test) m i (PFail false)
| pg_sat_end test m i : nth_error s i = None ->
    peg E s col T (GSatisfy test) m i (PFail false)
| pg_sat_exn test t e m i : nth_error s i = Some t -> test t = Raise e ->
    peg E s col T (GSatisfy test) m i (PExn e)
| pg_sym teq x l t m i : nth_error s i = Some t -> teq t x = true ->
    peg E s col T (GSym teq x l) m i (PSucc t (i + 1))
| pg_sym_no teq x l m i :
    (forall t, nth_error s i = Some t -> teq t x = false) ->
    peg E s col T (GSym teq x l) m i (PFail false)
| pg_lit teq x l m i : stands_at teq x s i = true ->
    peg E s col (list T) (GLiteral teq x l) m i (PSucc x (i + List.length x))
| pg_lit_no teq x l m i : stands_at teq x s i = false ->
    peg E s col (list T) (GLiteral teq x l) m i (PFail false)
| pg_re A (re : list T -> nat -> option (nat * option A)) e v m i :
    re s i = Some (e, Some v) -> peg E s col A (GRegexp re) m i (PSucc v e)
| pg_re_no A (re : list T -> nat -> option (nat * option A)) m i :
    ~ re_matches re s i -> peg E s col A (GRegexp re) m i (PFail false)
(* fmap *)
| pg_fmap A B (p : gram A) (f : A -> out B) m i v j w :
    peg E s col A p m i (PSucc v j) -> f v = Ret w ->
    peg E s col B (GFmap p f) m i (PSucc w j)
| pg_fmap_raise A B (p : gram A) (f : A -> out B) m i v j e :
    peg E s col A p m i (PSucc v j) -> f v = Raise e ->
    peg E s col B (GFmap p f) m i (PExn e)
| pg_fmap_fail A B (p : gram A) (f : A -> out B) m i b :
    peg E s col A p m i (PFail b) -> peg E s col B (GFmap p f) m i (PFail b)
| pg_fmap_exn A B (p : gram A) (f : A -> out B) m i e :
    peg E s col A p m i (PExn e) -> peg E s col B (GFmap p f) m i (PExn e)
(* choice: the second alternative only if the first failed without consuming *)
| pg_alt_l A (p q : gram A) m i v j :
    peg E s col A p m i (PSucc v j) -> peg E s col A (GAlt p q) m i (PSucc v j)
| pg_alt_fail A (p q : gram A) m i :
    peg E s col A p m i (PFail true) -> peg E s col A (GAlt p q) m i (PFail true)
| pg_alt_exn A (p q : gram A) m i e :
    peg E s col A p m i (PExn e) -> peg E s col A (GAlt p q) m i (PExn e)
| pg_alt_r A (p q : gram A) m i o :
    peg E s col A p m i (PFail false) -> peg E s col A q m i o ->
    peg E s col A (GAlt p q) m i o
(* sequencing *)
| pg_bind A B (p : gram A) (f : A -> gram B) m i v j o :
    peg E s col A p m i (PSucc v j) -> peg E s col B (f v) m j o ->
    peg E s col B (GBind p f) m i (after i j o)
| pg_bind_fail A B (p : gram A) (f : A -> gram B) m i b :
    peg E s col A p m i (PFail b) -> peg E s col B (GBind p f) m i (PFail b)
| pg_bind_exn A B (p : gram A) (f : A -> gram B) m i e :
    peg E s col A p m i (PExn e) -> peg E s col B (GBind p f) m i (PExn e)
| pg_seq A B C (p : gram A) (q : gram B) (merge : A -> B -> C) m i v j o :
    peg E s col A p m i (PSucc v j) -> peg E s col B q m j o ->
    peg E s col C (GSeq p q merge) m i (on_value (merge v) (after i j o))
| pg_seq_fail A B C (p : gram A) (q : gram B) (merge : A -> B -> C) m i b :
    peg E s col A p m i (PFail b) -> peg E s col C (GSeq p q merge) m i (PFail b)
| pg_seq_exn A B C (p : gram A) (q : gram B) (merge : A -> B -> C) m i e :
    peg E s col A p m i (PExn e) -> peg E s col C (GSeq p q merge) m i (PExn e)
(* optional part *)
| pg_maybe A (p : gram A) m i v j :
    peg E s col A p m i (PSucc v j) -> peg E s col _ (GMaybe p) m i (PSucc (Some v) j)
| pg_maybe_none A (p : gram A) m i :
    peg E s col A p m i (PFail false) -> peg E s col _ (GMaybe p) m i (PSucc None i)
| pg_maybe_fail A (p : gram A) m i :
    peg E s col A p m i (PFail true) -> peg E s col _ (GMaybe p) m i (PFail true)
| pg_maybe_exn A (p : gram A) m i e :
    peg E s col A p m i (PExn e) -> peg E s col _ (GMaybe p) m i (PExn e)
(* repetition: greedy; a success that consumes nothing is an error *)
| pg_many_more A (p : gram A) m i v j l k :
    i < j -> peg E s col A p m i (PSucc v j) -> peg E s col _ (GMany p) m j (PSucc l k) ->
    peg E s col _ (GMany p) m i (PSucc (v :: l) k)
| pg_many_more_fail A (p : gram A) m i v j b :
    i < j -> peg E s col A p m i (PSucc v j) -> peg E s col _ (GMany p) m j (PFail b) ->
    peg E s col _ (GMany p) m i (PFail b)
| pg_many_more_exn A (p : gram A) m i v j e :
    i < j -> peg E s col A p m i (PSucc v j) -> peg E s col _ (GMany p) m j (PExn e) ->
    peg E s col _ (GMany p) m i (PExn e)
| pg_many_empty A (p : gram A) m i v :
    peg E s col A p m i (PSucc v i) -> peg E s col _ (GMany p) m i (PExn ManyEmpty)
| pg_many_stop A (p : gram A) m i :
    peg E s col A p m i (PFail false) -> peg E s col _ (GMany p) m i (PSucc [] i)
| pg_many_fail A (p : gram A) m i :
    peg E s col A p m i (PFail true) -> peg E s col _ (GMany p) m i (PFail true)
| pg_many_exn A (p : gram A) m i e :
    peg E s col A p m i (PExn e) -> peg E s col _ (GMany p) m i (PExn e)
(* attempt: failures do not commit *)
| pg_attempt A (p : gram A) m i v j :
    peg E s col A p m i (PSucc v j) -> peg E s col A (GAttempt p) m i (PSucc v j)
| pg_attempt_fail A (p : gram A) m i b :
    peg E s col A p m i (PFail b) -> peg E s col A (GAttempt p) m i (PFail false)
| pg_attempt_exn A (p : gram A) m i e :
    peg E s col A p m i (PExn e) -> peg E s col A (GAttempt p) m i (PExn e)
(* annotations *)
| pg_label A (p : gram A) x m i o :
    peg E s col A p m i o -> peg E s col A (GLabel p x) m i o
| pg_recover A (p : gram A) m i o :
    peg E s col A p m i o -> peg E s col A (GRecover p) m i o
| pg_with A (p : gram A) x l m i o :
    peg E s col A p m i o -> peg E s col A (GRecoverWith p x l) m i o
| pg_withfn A (p : gram A) fn lab m i o :
    peg E s col A p m i o -> peg E s col A (GRecoverWithFn p fn lab) m i o
(* layout *)
| pg_block A (p : gram A) m i o :
    peg E s col A p (col i) i o -> peg E s col A (GBlock p) m i o
| pg_aligned A (p : gram A) m i o :
    col i = m -> peg E s col A p m i o -> peg E s col A (GAligned p) m i o
| pg_aligned_no A (p : gram A) m i :
    col i <> m -> peg E s col A (GAligned p) m i (PFail false)
| pg_indented A delta (p : gram A) m i o :
    col i = (m + delta)%Z -> peg E s col A p (col i) i o ->
    peg E s col A (GIndented delta p) m i o
| pg_indented_no A delta (p : gram A) m i :
    col i <> (m + delta)%Z -> peg E s col A (GIndented delta p) m i (PFail false)
(* forward references *)
| pg_delay d m i o : peg E s col (V d) (E d) m i o -> peg E s col (V d) (GDelay d) m i o
| pg_undef A m i : peg E s col A GUndef m i (PExn DelayUndefined).

End Peg.
