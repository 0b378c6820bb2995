(** Declarative big-step semantics of parsing without recovery *with its
    diagnostics*: where a failure is reported and which expected values it
    lists, in which order.

    A parser run at position [i] with column mark [m]
    - succeeds with a value, an end position [j] and the list of *pending*
      expectations: what could still have been read at [j];
    - fails, at the location [l], with the list of expected values, and says
      whether input was consumed before the failure;
    - or raises.
    Like [peg] (PegSpec.v) it knows nothing about contexts, cached locations,
    in-place updates or fuel.  [at_ i] is the location of position [i]. *)
From Verif Require Export PegSpec.

Inductive dres (A : Type) : Type :=
| DSucc (v : A) (j : nat) (pending : list string)
| DFail (committed : bool) (l : loc) (expected : list string)
| DExn (e : exn).
Arguments DSucc {A}. Arguments DFail {A}. Arguments DExn {A}.

Definition on_dvalue {A B} (f : A -> B) (o : dres A) : dres B :=
  match o with
  | DSucc v j X => DSucc (f v) j X
  | DFail b l X => DFail b l X
  | DExn e => DExn e
  end.

(** the outcome [o] of the rest, started at [j] after a first part that read
    from [i] to [j] and left [X] pending: as long as the rest consumes nothing,
    what the first part could have read is still expected, before the rest *)
Definition d_after {A} (i j : nat) (X : list string) (o : dres A) : dres A :=
  match o with
  | DSucc v k Y => DSucc v k (if Nat.ltb j k then Y else X ++ Y)
  | DFail true l Y => DFail true l Y
  | DFail false l Y => DFail (Nat.ltb i j) l (X ++ Y)
  | DExn e => DExn e
  end.

(** the outcome [o] of the second alternative at [i], after the first one
    failed at [l] without consuming, expecting [X] *)
Definition d_else {A} (i : nat) (l : loc) (X : list string) (o : dres A) : dres A :=
  match o with
  | DSucc v k Y => DSucc v k (if Nat.ltb i k then Y else X ++ Y)
  | DFail true l' Y => DFail true l' Y
  | DFail false _ Y => DFail false l (X ++ Y)
  | DExn e => DExn e
  end.

(** [label(x)] at [i]: replaces the expectations of what consumed nothing *)
Definition d_label {A} (i : nat) (x : string) (o : dres A) : dres A :=
  match o with
  | DSucc v k Y => DSucc v k (if Nat.ltb i k then Y else [x])
  | DFail true l Y => DFail true l Y
  | DFail false l _ => DFail false l [x]
  | DExn e => DExn e
  end.

Section Diag.
Context {T : Type} {V : nat -> Type}.
Notation gram := (gram T V).

Inductive diag (E : env T V) (s : list T) (at_ : nat -> loc)
  : forall A, gram A -> Z -> nat -> dres A -> Prop :=
(* primitives *)
| dg_pure A (x : A) m i : diag E s at_ A (GPure x) m i (DSucc x i [])
| dg_purefn A (f : unit -> out A) v m i :
    f tt = Ret v -> diag E s at_ A (GPureFn f) m i (DSucc v i [])
| dg_purefn_exn A (f : unit -> out A) e m i :
    f tt = Raise e -> diag E s at_ A (GPureFn f) m i (DExn e)
| dg_unexpected A l m i : diag E s at_ A (GUnexpected l) m i (DFail false (at_ i) [l])
| dg_eof m : diag E s at_ unit GEof m (List.length s) (DSucc tt (List.length s) [])
| dg_eof_fail m i : i <> List.length s ->
    diag E s at_ unit GEof m i (DFail false (at_ i) ["end of file"%string])
| dg_sat test t m i : nth_error s i = Some t -> test t = Ret true ->
    diag E s at_ T (GSatisfy test) m i (DSucc t (i + 1) [])
| dg_sat_no test t m i : nth_error s i = Some t -> test t = Ret false ->
    diag E s at_ T (GSatisfy test) m i (DFail false (at_ i) [])
| dg_sat_end test m i : nth_error s i = None ->
    diag E s at_ T (GSatisfy test) m i (DFail false (at_ i) [])
| dg_sat_exn test t e m i : nth_error s i = Some t -> test t = Raise e ->
    diag E s at_ T (GSatisfy test) m i (DExn e)
| dg_sym teq x l t m i : nth_error s i = Some t -> teq t x = true ->
    diag E s at_ T (GSym teq x l) m i (DSucc t (i + 1) [])
| dg_sym_no teq x l m i :
    (forall t, nth_error s i = Some t -> teq t x = false) ->
    diag E s at_ T (GSym teq x l) m i (DFail false (at_ i) [l])
| dg_lit teq x l m i : stands_at teq x s i = true ->
    diag E s at_ (list T) (GLiteral teq x l) m i (DSucc x (i + List.length x) [])
| dg_lit_no teq x l m i : stands_at teq x s i = false ->
    diag E s at_ (list T) (GLiteral teq x l) m i (DFail false (at_ i) [l])
| dg_re A (re : list T -> nat -> option (nat * option A)) e v m i :
    re s i = Some (e, Some v) -> diag E s at_ A (GRegexp re) m i (DSucc v e [])
| dg_re_no A (re : list T -> nat -> option (nat * option A)) m i :
    ~ re_matches re s i -> diag E s at_ A (GRegexp re) m i (DFail false (at_ i) [])
(* fmap *)
| dg_fmap A B (p : gram A) (f : A -> out B) m i v j X w :
    diag E s at_ A p m i (DSucc v j X) -> f v = Ret w ->
    diag E s at_ B (GFmap p f) m i (DSucc w j X)
| dg_fmap_raise A B (p : gram A) (f : A -> out B) m i v j X e :
    diag E s at_ A p m i (DSucc v j X) -> f v = Raise e ->
    diag E s at_ B (GFmap p f) m i (DExn e)
| dg_fmap_fail A B (p : gram A) (f : A -> out B) m i b l X :
    diag E s at_ A p m i (DFail b l X) -> diag E s at_ B (GFmap p f) m i (DFail b l X)
| dg_fmap_exn A B (p : gram A) (f : A -> out B) m i e :
    diag E s at_ A p m i (DExn e) -> diag E s at_ B (GFmap p f) m i (DExn e)
(* choice *)
| dg_alt_l A (p q : gram A) m i v j X :
    diag E s at_ A p m i (DSucc v j X) -> diag E s at_ A (GAlt p q) m i (DSucc v j X)
| dg_alt_fail A (p q : gram A) m i l X :
    diag E s at_ A p m i (DFail true l X) -> diag E s at_ A (GAlt p q) m i (DFail true l X)
| dg_alt_exn A (p q : gram A) m i e :
    diag E s at_ A p m i (DExn e) -> diag E s at_ A (GAlt p q) m i (DExn e)
| dg_alt_r A (p q : gram A) m i l X o :
    diag E s at_ A p m i (DFail false l X) -> diag E s at_ A q m i o ->
    diag E s at_ A (GAlt p q) m i (d_else i l X o)
(* sequencing *)
| dg_bind A B (p : gram A) (f : A -> gram B) m i v j X o :
    diag E s at_ A p m i (DSucc v j X) -> diag E s at_ B (f v) m j o ->
    diag E s at_ B (GBind p f) m i (d_after i j X o)
| dg_bind_fail A B (p : gram A) (f : A -> gram B) m i b l X :
    diag E s at_ A p m i (DFail b l X) -> diag E s at_ B (GBind p f) m i (DFail b l X)
| dg_bind_exn A B (p : gram A) (f : A -> gram B) m i e :
    diag E s at_ A p m i (DExn e) -> diag E s at_ B (GBind p f) m i (DExn e)
| dg_seq A B C (p : gram A) (q : gram B) (merge : A -> B -> C) m i v j X o :
    diag E s at_ A p m i (DSucc v j X) -> diag E s at_ B q m j o ->
    diag E s at_ C (GSeq p q merge) m i (on_dvalue (merge v) (d_after i j X o))
| dg_seq_fail A B C (p : gram A) (q : gram B) (merge : A -> B -> C) m i b l X :
    diag E s at_ A p m i (DFail b l X) -> diag E s at_ C (GSeq p q merge) m i (DFail b l X)
| dg_seq_exn A B C (p : gram A) (q : gram B) (merge : A -> B -> C) m i e :
    diag E s at_ A p m i (DExn e) -> diag E s at_ C (GSeq p q merge) m i (DExn e)
(* optional part: what was not there stays expected *)
| dg_maybe A (p : gram A) m i v j X :
    diag E s at_ A p m i (DSucc v j X) -> diag E s at_ _ (GMaybe p) m i (DSucc (Some v) j X)
| dg_maybe_none A (p : gram A) m i l X :
    diag E s at_ A p m i (DFail false l X) -> diag E s at_ _ (GMaybe p) m i (DSucc None i X)
| dg_maybe_fail A (p : gram A) m i l X :
    diag E s at_ A p m i (DFail true l X) -> diag E s at_ _ (GMaybe p) m i (DFail true l X)
| dg_maybe_exn A (p : gram A) m i e :
    diag E s at_ A p m i (DExn e) -> diag E s at_ _ (GMaybe p) m i (DExn e)
(* repetition: what the next item expected stays expected; what the last item
   left pending is forgotten *)
| dg_many_more A (p : gram A) m i v j X l k Y :
    i < j -> diag E s at_ A p m i (DSucc v j X) ->
    diag E s at_ _ (GMany p) m j (DSucc l k Y) ->
    diag E s at_ _ (GMany p) m i (DSucc (v :: l) k Y)
| dg_many_more_fail A (p : gram A) m i v j X b l Y :
    i < j -> diag E s at_ A p m i (DSucc v j X) ->
    diag E s at_ _ (GMany p) m j (DFail b l Y) ->
    diag E s at_ _ (GMany p) m i (DFail b l Y)
| dg_many_more_exn A (p : gram A) m i v j X e :
    i < j -> diag E s at_ A p m i (DSucc v j X) -> diag E s at_ _ (GMany p) m j (DExn e) ->
    diag E s at_ _ (GMany p) m i (DExn e)
| dg_many_empty A (p : gram A) m i v X :
    diag E s at_ A p m i (DSucc v i X) -> diag E s at_ _ (GMany p) m i (DExn ManyEmpty)
| dg_many_stop A (p : gram A) m i l X :
    diag E s at_ A p m i (DFail false l X) -> diag E s at_ _ (GMany p) m i (DSucc [] i X)
| dg_many_fail A (p : gram A) m i l X :
    diag E s at_ A p m i (DFail true l X) -> diag E s at_ _ (GMany p) m i (DFail true l X)
| dg_many_exn A (p : gram A) m i e :
    diag E s at_ A p m i (DExn e) -> diag E s at_ _ (GMany p) m i (DExn e)
(* attempt: failures do not commit, but keep their location *)
| dg_attempt A (p : gram A) m i v j X :
    diag E s at_ A p m i (DSucc v j X) -> diag E s at_ A (GAttempt p) m i (DSucc v j X)
| dg_attempt_fail A (p : gram A) m i b l X :
    diag E s at_ A p m i (DFail b l X) -> diag E s at_ A (GAttempt p) m i (DFail false l X)
| dg_attempt_exn A (p : gram A) m i e :
    diag E s at_ A p m i (DExn e) -> diag E s at_ A (GAttempt p) m i (DExn e)
(* annotations *)
| dg_label A (p : gram A) x m i o :
    diag E s at_ A p m i o -> diag E s at_ A (GLabel p x) m i (d_label i x o)
| dg_recover A (p : gram A) m i o :
    diag E s at_ A p m i o -> diag E s at_ A (GRecover p) m i o
| dg_with A (p : gram A) x l m i o :
    diag E s at_ A p m i o -> diag E s at_ A (GRecoverWith p x l) m i o
| dg_withfn A (p : gram A) fn lab m i o :
    diag E s at_ A p m i o -> diag E s at_ A (GRecoverWithFn p fn lab) m i o
(* layout *)
| dg_block A (p : gram A) m i o :
    diag E s at_ A p (loc_col (at_ i)) i o -> diag E s at_ A (GBlock p) m i o
| dg_aligned A (p : gram A) m i o :
    loc_col (at_ i) = m -> diag E s at_ A p m i o -> diag E s at_ A (GAligned p) m i o
| dg_aligned_no A (p : gram A) m i :
    loc_col (at_ i) <> m ->
    diag E s at_ A (GAligned p) m i (DFail false (at_ i) ["indentation"%string])
| dg_indented A delta (p : gram A) m i o :
    loc_col (at_ i) = (m + delta)%Z -> diag E s at_ A p (loc_col (at_ i)) i o ->
    diag E s at_ A (GIndented delta p) m i o
| dg_indented_no A delta (p : gram A) m i :
    loc_col (at_ i) <> (m + delta)%Z ->
    diag E s at_ A (GIndented delta p) m i (DFail false (at_ i) ["indentation"%string])
(* forward references *)
| dg_delay d m i o : diag E s at_ (V d) (E d) m i o -> diag E s at_ (V d) (GDelay d) m i o
| dg_undef A m i : diag E s at_ A GUndef m i (DExn DelayUndefined).

End Diag.
