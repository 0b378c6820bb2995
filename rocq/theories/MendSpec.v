(** Specification for C74: one way of mending an input, written down on its own,
    without listing the alternatives the parser also offers.

    [mend E s at_ A g m i ins rem y]: parser [g], started at position [i] of [s]
    with column mark [m], can be led through by the repair [y]: everything that
    [y] does not touch is read as the documented rules say ([peg], PegSpec.v),
    and at each failure a primitive (or recover_with) that stands there performs
    the elementary repair that is offered at that place.  [ins] insertions are
    allowed in a row, [rem] of them are left ([None]: repairs may not start
    before something has been read). *)
From Verif Require Export RecSpec TermSpec.

Record mended (A : Type) : Type := Mended {
  y_cost : nat;                (* tokens skipped plus insertions *)
  y_auto : bool;               (* starts with an automatic insertion *)
  y_left : Z;                  (* insertions left *)
  y_ops : list (rop * loc);    (* the operations, with the places they are reported at *)
  y_val : A;
  y_pos : nat
}.
Arguments Mended {A}. Arguments y_cost {A}. Arguments y_auto {A}. Arguments y_left {A}.
Arguments y_ops {A}. Arguments y_val {A}. Arguments y_pos {A}.

Definition y_with {A B} (y : mended A) (v : B) : mended B :=
  {| y_cost := y_cost y; y_auto := y_auto y; y_left := y_left y; y_ops := y_ops y; y_val := v; y_pos := y_pos y |}.
(** [a] is preferred to [b]: cheaper, or as cheap and farther, or equal in both
    and not starting with an automatic insertion *)
Definition y_better {A} (a b : mended A) : Prop :=
  y_cost a < y_cost b \/
  (y_cost a = y_cost b /\
   (y_pos b < y_pos a \/ (y_pos a = y_pos b /\ y_auto a = false /\ y_auto b = true))).
(** the errors that report the operations of [y] *)
Definition y_reported {A} (fmt : loc -> string) (y : mended A) (errs : list erroritem) : Prop :=
  Forall2 (fun e (o : rop * loc) => ei_op e = Some (fst o) /\ ei_loc e = snd o /\ ei_loc_str e = fmt (snd o)) errs (y_ops y).
(** skipping [count] tokens; inserting *)
Definition y_skip {A} (ins : Z) (x : A) (j : nat) (l : loc) (count : nat) : mended A :=
  {| y_cost := count; y_auto := false; y_left := ins; y_ops := [(Skip count, l)]; y_val := x; y_pos := j |}.
Definition y_insert {A} (auto : bool) (left : Z) (x : A) (i : nat) (l : loc) (label : string) : mended A :=
  {| y_cost := 1; y_auto := auto; y_left := (left - 1)%Z; y_ops := [(Insert label, l)]; y_val := x; y_pos := i |}.
(** a repair, followed by something that is read without repairs; by another repair *)
Definition y_then_read {A B C} (ins : Z) (merge : A -> B -> C) (y : mended A) (w : B) (k : nat) : mended C :=
  {| y_cost := y_cost y; y_auto := y_auto y; y_left := if Nat.eqb (y_pos y) k then y_left y else ins;
     y_ops := y_ops y; y_val := merge (y_val y) w; y_pos := k |}.
Definition y_then_mend {A B C} (merge : A -> B -> C) (y : mended A) (y' : mended B) : mended C :=
  {| y_cost := y_cost y + y_cost y'; y_auto := y_auto y; y_left := y_left y';
     y_ops := y_ops y ++ y_ops y'; y_val := merge (y_val y) (y_val y'); y_pos := y_pos y' |}.

Section Mend.
Context {T : Type} {V : nat -> Type}.
Notation gram := (gram T V).

Inductive mend (E : env T V) (s : list T) (at_ : nat -> loc)
  : forall A, gram A -> Z -> nat -> Z -> option Z -> mended A -> Prop :=
(* the rest of the input is skipped at the end *)
| md_eof m i ins left : i < List.length s ->
    mend E s at_ unit GEof m i ins (Some left) (y_skip ins tt (List.length s) (at_ i) (List.length s - i))
(* a primitive skips to its next match *)
| md_sat test m i ins left j t : sat_miss test s i -> next_hit s (sat_hit test s) (sat_miss test s) i j t ->
    mend E s at_ T (GSatisfy test) m i ins (Some left) (y_skip ins t (j + 1) (at_ i) (j - i))
| md_sym_skip teq x l m i ins left j t : sym_miss teq x s i -> next_hit s (sym_hit teq x s) (sym_miss teq x s) i j t ->
    mend E s at_ T (GSym teq x l) m i ins (Some left) (y_skip ins t (j + 1) (at_ i) (j - i))
| md_lit_skip teq x l m i ins left j : lit_miss teq x s i -> next_hit s (lit_hit teq x s) (lit_miss teq x s) i j tt ->
    mend E s at_ (list T) (GLiteral teq x l) m i ins (Some left) (y_skip ins x (j + List.length x) (at_ i) (j - i))
| md_re A (re : list T -> nat -> option (nat * option A)) m i ins left j e v :
    re_miss re s i -> next_hit s (re_hit re s) (re_miss re s) i j (e, v) ->
    mend E s at_ A (GRegexp re) m i ins (Some left) (y_skip ins v e (at_ i) (j - i))
(* sym and literal insert what is missing *)
| md_sym_insert teq x l m i ins left : sym_miss teq x s i -> left <> 0%Z ->
    mend E s at_ T (GSym teq x l) m i ins (Some left) (y_insert true left x i (at_ i) l)
| md_lit_insert teq x l m i ins left : lit_miss teq x s i -> left <> 0%Z ->
    mend E s at_ (list T) (GLiteral teq x l) m i ins (Some left) (y_insert true left x i (at_ i) l)
(* a callback that returns *)
| md_fmap A B (p : gram A) (f : A -> out B) m i ins rem y w :
    mend E s at_ A p m i ins rem y -> f (y_val y) = Ret w ->
    mend E s at_ B (GFmap p f) m i ins rem (y_with y w)
(* choice: the alternative that has started; the first or a later alternative if none starts *)
| md_alt_l A (p q : gram A) m i ins rem y :
    mend E s at_ A p m i ins None y -> mend E s at_ A (GAlt p q) m i ins rem y
| md_alt_r A (p q : gram A) m i ins rem y :
    peg E s (fun i => loc_col (at_ i)) A p m i (PFail false) ->
    mend E s at_ A q m i ins None y -> mend E s at_ A (GAlt p q) m i ins rem y
| md_alt_first A (p q : gram A) m i ins left y :
    peg E s (fun i => loc_col (at_ i)) A p m i (PFail false) ->
    peg E s (fun i => loc_col (at_ i)) A q m i (PFail false) ->
    mend E s at_ A p m i ins (Some left) y -> mend E s at_ A (GAlt p q) m i ins (Some left) y
| md_alt_later A (p q : gram A) m i ins left y :
    peg E s (fun i => loc_col (at_ i)) A p m i (PFail false) ->
    peg E s (fun i => loc_col (at_ i)) A q m i (PFail false) ->
    mend E s at_ A q m i ins (Some left) y ->
    y_auto y = false \/ (exists b l X, rsem E s at_ A p m i ins (Some left) (RFail b l X)) ->
    mend E s at_ A (GAlt p q) m i ins (Some left) y
(* sequences: the second part is mended, or the first and perhaps the second *)
| md_bind_2 A B (p : gram A) (f : A -> gram B) m i ins rem v j y :
    peg E s (fun i => loc_col (at_ i)) A p m i (PSucc v j) ->
    mend E s at_ B (f v) m j ins (if Nat.ltb i j then Some ins else rem) y ->
    mend E s at_ B (GBind p f) m i ins rem y
| md_bind_1 A B (p : gram A) (f : A -> gram B) m i ins rem y w k :
    mend E s at_ A p m i ins rem y ->
    peg E s (fun i => loc_col (at_ i)) B (f (y_val y)) m (y_pos y) (PSucc w k) ->
    mend E s at_ B (GBind p f) m i ins rem (y_then_read ins (fun _ w => w) y w k)
| md_bind_12 A B (p : gram A) (f : A -> gram B) m i ins rem y y' :
    mend E s at_ A p m i ins rem y ->
    mend E s at_ B (f (y_val y)) m (y_pos y) ins (Some (y_left y)) y' ->
    mend E s at_ B (GBind p f) m i ins rem (y_then_mend (fun _ w => w) y y')
| md_seq_2 A B C (p : gram A) (q : gram B) (merge : A -> B -> C) m i ins rem v j y :
    peg E s (fun i => loc_col (at_ i)) A p m i (PSucc v j) ->
    mend E s at_ B q m j ins (if Nat.ltb i j then Some ins else rem) y ->
    mend E s at_ C (GSeq p q merge) m i ins rem (y_with y (merge v (y_val y)))
| md_seq_1 A B C (p : gram A) (q : gram B) (merge : A -> B -> C) m i ins rem y w k :
    mend E s at_ A p m i ins rem y ->
    peg E s (fun i => loc_col (at_ i)) B q m (y_pos y) (PSucc w k) ->
    mend E s at_ C (GSeq p q merge) m i ins rem (y_then_read ins merge y w k)
| md_seq_12 A B C (p : gram A) (q : gram B) (merge : A -> B -> C) m i ins rem y y' :
    mend E s at_ A p m i ins rem y ->
    mend E s at_ B q m (y_pos y) ins (Some (y_left y)) y' ->
    mend E s at_ C (GSeq p q merge) m i ins rem (y_then_mend merge y y')
(* an optional part or an item of a repetition that has started *)
| md_maybe A (p : gram A) m i ins rem y :
    mend E s at_ A p m i ins None y -> mend E s at_ _ (GMaybe p) m i ins rem (y_with y (Some (y_val y)))
| md_many_more A (p : gram A) m i ins rem v j y :
    peg E s (fun i => loc_col (at_ i)) A p m i (PSucc v j) ->
    mend E s at_ _ (GMany p) m j ins None y ->
    mend E s at_ _ (GMany p) m i ins rem (y_with y (v :: y_val y))
| md_many_1 A (p : gram A) m i ins rem y w k :
    mend E s at_ A p m i ins None y ->
    peg E s (fun i => loc_col (at_ i)) _ (GMany p) m (y_pos y) (PSucc w k) ->
    mend E s at_ _ (GMany p) m i ins rem (y_then_read ins cons y w k)
| md_many_12 A (p : gram A) m i ins rem y y' :
    mend E s at_ A p m i ins None y ->
    mend E s at_ _ (GMany p) m (y_pos y) ins None y' ->
    mend E s at_ _ (GMany p) m i ins rem (y_then_mend cons y y')
(* attempt: only where repairs may start *)
| md_attempt A (p : gram A) m i ins left y :
    mend E s at_ A p m i ins (Some left) y -> mend E s at_ A (GAttempt p) m i ins (Some left) y
| md_label A (p : gram A) x m i ins rem y :
    mend E s at_ A p m i ins rem y -> mend E s at_ A (GLabel p x) m i ins rem y
(* recover: insertions count as made by the user *)
| md_recover A (p : gram A) m i ins rem y :
    mend E s at_ A p m i ins rem y ->
    mend E s at_ A (GRecover p) m i ins rem
      {| y_cost := y_cost y; y_auto := false; y_left := y_left y; y_ops := y_ops y; y_val := y_val y; y_pos := y_pos y |}
(* recover_with, recover_with_fn: the value can be inserted unless something was read *)
| md_with A (p : gram A) x lb m i ins rem y :
    mend E s at_ A p m i ins rem y -> mend E s at_ A (GRecoverWith p x lb) m i ins rem y
| md_with_insert A (p : gram A) x lb m i ins left o :
    rsem E s at_ A p m i ins (Some left) o -> ~ settled o -> left <> 0%Z ->
    mend E s at_ A (GRecoverWith p x lb) m i ins (Some left) (y_insert false left x i (at_ i) lb)
| md_withfn A (p : gram A) fn lab m i ins rem y :
    mend E s at_ A p m i ins rem y -> mend E s at_ A (GRecoverWithFn p fn lab) m i ins rem y
| md_withfn_insert A (p : gram A) fn lab x m i ins left o :
    rsem E s at_ A p m i ins (Some left) o -> ~ settled o -> left <> 0%Z -> fn s i = Ret x ->
    mend E s at_ A (GRecoverWithFn p fn lab) m i ins (Some left) (y_insert false left x i (at_ i) (lab x))
(* layout *)
| md_block A (p : gram A) m i ins rem y :
    mend E s at_ A p (loc_col (at_ i)) i ins rem y -> mend E s at_ A (GBlock p) m i ins rem y
| md_aligned A (p : gram A) m i ins rem y :
    loc_col (at_ i) = m -> mend E s at_ A p m i ins rem y -> mend E s at_ A (GAligned p) m i ins rem y
| md_indented A delta (p : gram A) m i ins rem y :
    loc_col (at_ i) = (m + delta)%Z -> mend E s at_ A p (loc_col (at_ i)) i ins rem y ->
    mend E s at_ A (GIndented delta p) m i ins rem y
(* forward references *)
| md_delay d m i ins rem y :
    mend E s at_ (V d) (E d) m i ins rem y -> mend E s at_ (V d) (GDelay d) m i ins rem y.

(** neither recover nor recover_with is used *)
Definition is_recover B (q : gram B) : Prop :=
  match q with GRecover _ | GRecoverWith _ _ _ | GRecoverWithFn _ _ _ => True | _ => False end.
Definition recover_free (E : env T V) {A} (g : gram A) : Prop := everywhere E (fun B q => ~ is_recover B q) g.
End Mend.
