(** Specification for C82: parsing with recovery (as in [RecSpec.v]) and without it, for
    callbacks that read and change a shared state.  The judgement
    [eff E s at_ A g m i md w o w'] says: the parser [g], started at position [i] with
    column mark [m] in the mode [md] and the state [w], has the outcome [o] (the outcomes
    are those of [RecSpec.v]) and leaves the state [w'].  The rules say which callbacks run,
    how often and in which order; the state is threaded through them and never put back. *)
From Verif Require Export StatefulPegSpec RecSpec.

(** how a parser is run *)
Inductive mode : Type :=
| Plain                                  (* recover=False *)
| Rec (ins : Z) (left : option Z).       (* recover=True: [ins] insertions are allowed in a row,
                                            [left] of them are left; [None]: no repair may
                                            start here *)
(** the number of insertions left, if a repair may start here *)
Definition allowance (md : mode) : option Z := match md with Plain => None | Rec _ r => r end.
(** the same, but no repair may start before input is consumed *)
Definition hush (md : mode) : mode := match md with Plain => Plain | Rec ins _ => Rec ins None end.
(** the mode after a success from [i] to [j]: consumed input allows repairs, with a new
    allowance *)
Definition renew (md : mode) (i j : nat) : mode :=
  match md with
  | Plain => Plain | Rec ins r => Rec ins (if Nat.ltb i j then Some ins else r)
  end.

(** attempt: the failure does not count as committed *)
Definition uncommitted {A} (o : rres A) : rres A :=
  match o with RFail _ l X => RFail false l X | o => o end.
Definition no_exn {A} (o : rres A) : Prop := match o with RExn _ => False | _ => True end.

Section Effect.
Context {St T : Type} {V : nat -> Type}.
Notation sgram := (sgram St T V).

(** the conditions on the primitives' arguments, as in [wf_node] of [Spec.v]: a compiled
    regular expression matches inside the input, a literal is not empty, and comparing an
    expected token with itself gives [True] *)
Definition ewf_node A (g : sgram A) : Prop :=
  match g with
  | XRegexp m => forall s pos e v, pos <= List.length s ->
      m s pos = Some (e, v) -> pos <= e <= List.length s
  | XLiteral teq x _ => x <> [] /\ forall a, In a x -> teq a a = true
  | XSym teq x _ => teq x x = true
  | _ => True
  end.
Definition ewf {A} (g : sgram A) : Prop := sall ewf_node g.
Definition ewf_env (E : senv St T V) : Prop := forall d, ewf (E d).

(** parsers that call nothing back *)
Definition calls_nothing {A} (g : gram T V A) : Prop :=
  match g with
  | GPure _ | GUnexpected _ | GEof | GSym _ _ _ | GLiteral _ _ _ | GRegexp _ | GUndef => True
  | _ => False
  end.
Definition nothing : env T V := fun _ => GUndef.

(** the predicate of [satisfy] does not accept at [j]; it is not called at the end *)
Definition rejected (test : T -> st St bool) (s : list T) (j : nat) (w w' : St) : Prop :=
  match nth_error s j with
  | Some t => test t w = (w', Ret false)
  | None => w' = w
  end.
(** the search for the next accepted token, from [j] on *)
Inductive seek (test : T -> st St bool) (s : list T) : nat -> St -> option (nat * T) + exn -> St -> Prop :=
| sk_end j w : List.length s <= j -> seek test s j w (inl None) w
| sk_hit j t w w' : nth_error s j = Some t -> test t w = (w', Ret true) ->
    seek test s j w (inl (Some (j, t))) w'
| sk_next j t w w1 x w' : nth_error s j = Some t -> test t w = (w1, Ret false) ->
    seek test s (S j) w1 x w' -> seek test s j w x w'
| sk_raise j t e w w' : nth_error s j = Some t -> test t w = (w', Raise e) ->
    seek test s j w (inr e) w'.

(** a callback applied to the values of all repairs, one after the other *)
Fixpoint f_calls {A B} (f : A -> st St B) (rs : list (offer A)) : st St (list (offer B)) :=
  match rs with
  | [] => fun w => (w, Ret [])
  | r :: rs => fun w =>
      match f (f_val r) w with
      | (w1, Ret v) =>
          match f_calls f rs w1 with
          | (w2, Ret rs') => (w2, Ret (f_with r v :: rs'))
          | (w2, Raise e) => (w2, Raise e)
          | (w2, NoFuel) => (w2, NoFuel)
          end
      | (w1, Raise e) => (w1, Raise e)
      | (w1, NoFuel) => (w1, NoFuel)
      end
  end.

Inductive eff (E : senv St T V) (s : list T) (at_ : nat -> loc)
  : forall A, sgram A -> Z -> nat -> mode -> St -> rres A -> St -> Prop :=
(* primitives without callbacks: as in RecSpec.v and DiagSpec.v *)
| ef_prim A (g : gram T V A) m i ins rem o w :
    calls_nothing g -> rsem nothing s at_ A g m i ins rem o ->
    eff E s at_ A (lift_gram g) m i (Rec ins rem) w o w
| ef_prim_plain A (g : gram T V A) m i o w :
    calls_nothing g -> diag nothing s at_ A g m i o ->
    eff E s at_ A (lift_gram g) m i Plain w (plain o) w
(* pure_fn *)
| ef_purefn A (f : unit -> st St A) v m i md w w' :
    f tt w = (w', Ret v) -> eff E s at_ A (XPureFn f) m i md w (RSucc v i []) w'
| ef_purefn_exn A (f : unit -> st St A) e m i md w w' :
    f tt w = (w', Raise e) -> eff E s at_ A (XPureFn f) m i md w (RExn e) w'
(* satisfy: one call; where repairs are allowed, one more for every token up to the next
   accepted one *)
| ef_sat test t m i md w w' : nth_error s i = Some t -> test t w = (w', Ret true) ->
    eff E s at_ T (XSatisfy test) m i md w (RSucc t (i + 1) []) w'
| ef_sat_exn test t e m i md w w' : nth_error s i = Some t -> test t w = (w', Raise e) ->
    eff E s at_ T (XSatisfy test) m i md w (RExn e) w'
| ef_sat_fail test m i md w w' : rejected test s i w w' -> allowance md = None ->
    eff E s at_ T (XSatisfy test) m i md w (RFail false (at_ i) []) w'
| ef_sat_skip test m i ins left j t w w1 w2 :
    rejected test s i w w1 -> seek test s (S i) w1 (inl (Some (j, t))) w2 ->
    eff E s at_ T (XSatisfy test) m i (Rec ins (Some left)) w
      (ROffer (Some (j - i)) false (at_ i) [] [f_skip ins t (j + 1) (at_ i) (j - i) [] true]) w2
| ef_sat_none test m i ins left w w1 w2 :
    rejected test s i w w1 -> seek test s (S i) w1 (inl None) w2 ->
    eff E s at_ T (XSatisfy test) m i (Rec ins (Some left)) w (RFail false (at_ i) []) w2
| ef_sat_later_exn test m i ins left e w w1 w2 :
    rejected test s i w w1 -> seek test s (S i) w1 (inr e) w2 ->
    eff E s at_ T (XSatisfy test) m i (Rec ins (Some left)) w (RExn e) w2
(* fmap: after the parser; for every repair *)
| ef_fmap A B (p : sgram A) (f : A -> st St B) m i md v j X x w w1 w2 :
    eff E s at_ A p m i md w (RSucc v j X) w1 -> f v w1 = (w2, Ret x) ->
    eff E s at_ B (XFmap p f) m i md w (RSucc x j X) w2
| ef_fmap_raise A B (p : sgram A) (f : A -> st St B) m i md v j X e w w1 w2 :
    eff E s at_ A p m i md w (RSucc v j X) w1 -> f v w1 = (w2, Raise e) ->
    eff E s at_ B (XFmap p f) m i md w (RExn e) w2
| ef_fmap_fail A B (p : sgram A) (f : A -> st St B) m i md b l X w w1 :
    eff E s at_ A p m i md w (RFail b l X) w1 ->
    eff E s at_ B (XFmap p f) m i md w (RFail b l X) w1
| ef_fmap_offer A B (p : sgram A) (f : A -> st St B) m i md n b l X rs rs' w w1 w2 :
    eff E s at_ A p m i md w (ROffer n b l X rs) w1 -> f_calls f rs w1 = (w2, Ret rs') ->
    eff E s at_ B (XFmap p f) m i md w (ROffer n b l X rs') w2
| ef_fmap_offer_raise A B (p : sgram A) (f : A -> st St B) m i md n b l X rs e w w1 w2 :
    eff E s at_ A p m i md w (ROffer n b l X rs) w1 -> f_calls f rs w1 = (w2, Raise e) ->
    eff E s at_ B (XFmap p f) m i md w (RExn e) w2
| ef_fmap_exn A B (p : sgram A) (f : A -> st St B) m i md e w w1 :
    eff E s at_ A p m i md w (RExn e) w1 ->
    eff E s at_ B (XFmap p f) m i md w (RExn e) w1
(* choice: both alternatives in order without repairs before input is consumed; if none is
   settled and repairs are allowed, both again, with repairs *)
| ef_alt_l A (p q : sgram A) m i md o w w1 :
    eff E s at_ A p m i (hush md) w o w1 -> settled o ->
    eff E s at_ A (XAlt p q) m i md w o w1
| ef_alt_r A (p q : sgram A) m i md l X o w w1 w2 :
    eff E s at_ A p m i (hush md) w (RFail false l X) w1 ->
    eff E s at_ A q m i (hush md) w1 o w2 -> settled o ->
    eff E s at_ A (XAlt p q) m i md w (r_else i X o) w2
| ef_alt_fail A (p q : sgram A) m i md l X l' Y w w1 w2 :
    eff E s at_ A p m i (hush md) w (RFail false l X) w1 ->
    eff E s at_ A q m i (hush md) w1 (RFail false l' Y) w2 -> allowance md = None ->
    eff E s at_ A (XAlt p q) m i md w (RFail false l (X ++ Y)) w2
| ef_alt_recover A (p q : sgram A) m i ins left l X l' Y o1 o2 w w1 w2 w3 w4 :
    eff E s at_ A p m i (Rec ins None) w (RFail false l X) w1 ->
    eff E s at_ A q m i (Rec ins None) w1 (RFail false l' Y) w2 ->
    eff E s at_ A p m i (Rec ins (Some left)) w2 o1 w3 -> no_exn o1 ->
    eff E s at_ A q m i (Rec ins (Some left)) w3 o2 w4 ->
    eff E s at_ A (XAlt p q) m i (Rec ins (Some left)) w (r_choice l (X ++ Y) o1 o2) w4
| ef_alt_recover_exn A (p q : sgram A) m i ins left l X l' Y e w w1 w2 w3 :
    eff E s at_ A p m i (Rec ins None) w (RFail false l X) w1 ->
    eff E s at_ A q m i (Rec ins None) w1 (RFail false l' Y) w2 ->
    eff E s at_ A p m i (Rec ins (Some left)) w2 (RExn e) w3 ->
    eff E s at_ A (XAlt p q) m i (Rec ins (Some left)) w (RExn e) w3
(* sequencing: the callback of bind, then the rest; after a repair, once for every repair *)
| ef_bind A B (p : sgram A) (f : A -> St -> St * out (sgram B)) m i md v j X q o w w1 w2 w3 :
    eff E s at_ A p m i md w (RSucc v j X) w1 -> f v w1 = (w2, Ret q) ->
    eff E s at_ B q m j (renew md i j) w2 o w3 ->
    eff E s at_ B (XBind p f) m i md w (r_after i j X o) w3
| ef_bind_raise A B (p : sgram A) (f : A -> St -> St * out (sgram B)) m i md v j X e w w1 w2 :
    eff E s at_ A p m i md w (RSucc v j X) w1 -> f v w1 = (w2, Raise e) ->
    eff E s at_ B (XBind p f) m i md w (RExn e) w2
| ef_bind_fail A B (p : sgram A) (f : A -> St -> St * out (sgram B)) m i md b l X w w1 :
    eff E s at_ A p m i md w (RFail b l X) w1 ->
    eff E s at_ B (XBind p f) m i md w (RFail b l X) w1
| ef_bind_offer A B (p : sgram A) (f : A -> St -> St * out (sgram B)) m i ins rem n b l X rs rs' w w1 w2 :
    eff E s at_ A p m i (Rec ins rem) w (ROffer n b l X rs) w1 ->
    econts E s at_ A B B f (fun _ v => v) m ins rs w1 (inl rs') w2 ->
    eff E s at_ B (XBind p f) m i (Rec ins rem) w (ROffer n b l X rs') w2
| ef_bind_offer_exn A B (p : sgram A) (f : A -> St -> St * out (sgram B)) m i ins rem n b l X rs e w w1 w2 :
    eff E s at_ A p m i (Rec ins rem) w (ROffer n b l X rs) w1 ->
    econts E s at_ A B B f (fun _ v => v) m ins rs w1 (inr e) w2 ->
    eff E s at_ B (XBind p f) m i (Rec ins rem) w (RExn e) w2
| ef_bind_exn A B (p : sgram A) (f : A -> St -> St * out (sgram B)) m i md e w w1 :
    eff E s at_ A p m i md w (RExn e) w1 ->
    eff E s at_ B (XBind p f) m i md w (RExn e) w1
| ef_seq A B C (p : sgram A) (q : sgram B) (merge : A -> B -> C) m i md v j X o w w1 w2 :
    eff E s at_ A p m i md w (RSucc v j X) w1 ->
    eff E s at_ B q m j (renew md i j) w1 o w2 ->
    eff E s at_ C (XSeq p q merge) m i md w (on_rvalue (merge v) (r_after i j X o)) w2
| ef_seq_fail A B C (p : sgram A) (q : sgram B) (merge : A -> B -> C) m i md b l X w w1 :
    eff E s at_ A p m i md w (RFail b l X) w1 ->
    eff E s at_ C (XSeq p q merge) m i md w (RFail b l X) w1
| ef_seq_offer A B C (p : sgram A) (q : sgram B) (merge : A -> B -> C) m i ins rem n b l X rs rs' w w1 w2 :
    eff E s at_ A p m i (Rec ins rem) w (ROffer n b l X rs) w1 ->
    econts E s at_ A B C (fun _ w => (w, Ret q)) merge m ins rs w1 (inl rs') w2 ->
    eff E s at_ C (XSeq p q merge) m i (Rec ins rem) w (ROffer n b l X rs') w2
| ef_seq_offer_exn A B C (p : sgram A) (q : sgram B) (merge : A -> B -> C) m i ins rem n b l X rs e w w1 w2 :
    eff E s at_ A p m i (Rec ins rem) w (ROffer n b l X rs) w1 ->
    econts E s at_ A B C (fun _ w => (w, Ret q)) merge m ins rs w1 (inr e) w2 ->
    eff E s at_ C (XSeq p q merge) m i (Rec ins rem) w (RExn e) w2
| ef_seq_exn A B C (p : sgram A) (q : sgram B) (merge : A -> B -> C) m i md e w w1 :
    eff E s at_ A p m i md w (RExn e) w1 ->
    eff E s at_ C (XSeq p q merge) m i md w (RExn e) w1
(* optional part: what a part that did not start did to the state stays *)
| ef_maybe A (p : sgram A) m i md o w w1 :
    eff E s at_ A p m i (hush md) w o w1 -> settled o ->
    eff E s at_ _ (XMaybe p) m i md w (on_rvalue Some o) w1
| ef_maybe_none A (p : sgram A) m i md l X w w1 :
    eff E s at_ A p m i (hush md) w (RFail false l X) w1 ->
    eff E s at_ _ (XMaybe p) m i md w (RSucc None i X) w1
(* repetition: one item after the other, then the trial that ended it *)
| ef_many_more A (p : sgram A) m i md v j X o w w1 w2 :
    i < j -> eff E s at_ A p m i (hush md) w (RSucc v j X) w1 ->
    eff E s at_ _ (XMany p) m j (hush md) w1 o w2 ->
    eff E s at_ _ (XMany p) m i md w (on_rvalue (cons v) o) w2
| ef_many_empty A (p : sgram A) m i md v X w w1 :
    eff E s at_ A p m i (hush md) w (RSucc v i X) w1 ->
    eff E s at_ _ (XMany p) m i md w (RExn ManyEmpty) w1
| ef_many_stop A (p : sgram A) m i md l X w w1 :
    eff E s at_ A p m i (hush md) w (RFail false l X) w1 ->
    eff E s at_ _ (XMany p) m i md w (RSucc [] i X) w1
| ef_many_fail A (p : sgram A) m i md l X w w1 :
    eff E s at_ A p m i (hush md) w (RFail true l X) w1 ->
    eff E s at_ _ (XMany p) m i md w (RFail true l X) w1
| ef_many_offer A (p : sgram A) m i ins rem n b l X rs rs' w w1 w2 :
    eff E s at_ A p m i (Rec ins None) w (ROffer n b l X rs) w1 ->
    econts E s at_ A (list A) (list A) (fun _ w => (w, Ret (XMany p))) cons m ins rs w1 (inl rs') w2 ->
    eff E s at_ _ (XMany p) m i (Rec ins rem) w (ROffer n b l X rs') w2
| ef_many_offer_exn A (p : sgram A) m i ins rem n b l X rs e w w1 w2 :
    eff E s at_ A p m i (Rec ins None) w (ROffer n b l X rs) w1 ->
    econts E s at_ A (list A) (list A) (fun _ w => (w, Ret (XMany p))) cons m ins rs w1 (inr e) w2 ->
    eff E s at_ _ (XMany p) m i (Rec ins rem) w (RExn e) w2
| ef_many_exn A (p : sgram A) m i md e w w1 :
    eff E s at_ A p m i (hush md) w (RExn e) w1 ->
    eff E s at_ _ (XMany p) m i md w (RExn e) w1
(* attempt takes back the position, not the effects; where no repair may start, its parser
   runs without recovery *)
| ef_attempt A (p : sgram A) m i ins left o w w1 :
    eff E s at_ A p m i (Rec ins (Some left)) w o w1 ->
    eff E s at_ A (XAttempt p) m i (Rec ins (Some left)) w o w1
| ef_attempt_plain A (p : sgram A) m i md o w w1 :
    allowance md = None -> eff E s at_ A p m i Plain w o w1 ->
    eff E s at_ A (XAttempt p) m i md w (uncommitted o) w1
(* annotations *)
| ef_label A (p : sgram A) x m i md o w w1 :
    eff E s at_ A p m i md w o w1 ->
    eff E s at_ A (XLabel p x) m i md w (r_label i x o) w1
| ef_recover A (p : sgram A) m i md o w w1 :
    eff E s at_ A p m i md w o w1 ->
    eff E s at_ A (XRecover p) m i md w (r_ranked o) w1
| ef_with_none A (p : sgram A) x lb m i md o w w1 :
    eff E s at_ A p m i md w o w1 -> allowance md = None ->
    eff E s at_ A (XRecoverWith p x lb) m i md w o w1
| ef_with_off A (p : sgram A) x lb m i ins left o w w1 :
    eff E s at_ A p m i (Rec ins (Some left)) w o w1 -> settled o \/ left = 0%Z ->
    eff E s at_ A (XRecoverWith p x lb) m i (Rec ins (Some left)) w o w1
| ef_with_fail A (p : sgram A) x lb m i ins left l X w w1 :
    eff E s at_ A p m i (Rec ins (Some left)) w (RFail false l X) w1 -> left <> 0%Z ->
    eff E s at_ A (XRecoverWith p x lb) m i (Rec ins (Some left)) w
      (ROffer None false (at_ i) [] [f_insert (Some 0) left x i (at_ i) lb X]) w1
| ef_with_offer A (p : sgram A) x lb m i ins left n l X rs w w1 :
    eff E s at_ A p m i (Rec ins (Some left)) w (ROffer n false l X rs) w1 -> left <> 0%Z ->
    eff E s at_ A (XRecoverWith p x lb) m i (Rec ins (Some left)) w
      (ROffer n false (at_ i) X (f_insert (Some 0) left x i (at_ i) lb X :: rs)) w1
(* recover_with_fn: the callback runs after the parser, and only if its repair is offered *)
| ef_withfn_none A (p : sgram A) fn lab m i md o w w1 :
    eff E s at_ A p m i md w o w1 -> allowance md = None ->
    eff E s at_ A (XRecoverWithFn p fn lab) m i md w o w1
| ef_withfn_off A (p : sgram A) fn lab m i ins left o w w1 :
    eff E s at_ A p m i (Rec ins (Some left)) w o w1 -> settled o \/ left = 0%Z ->
    eff E s at_ A (XRecoverWithFn p fn lab) m i (Rec ins (Some left)) w o w1
| ef_withfn_fail A (p : sgram A) fn lab m i ins left l X x w w1 w2 :
    eff E s at_ A p m i (Rec ins (Some left)) w (RFail false l X) w1 -> left <> 0%Z ->
    fn s i w1 = (w2, Ret x) ->
    eff E s at_ A (XRecoverWithFn p fn lab) m i (Rec ins (Some left)) w
      (ROffer None false (at_ i) [] [f_insert (Some 0) left x i (at_ i) (lab x) X]) w2
| ef_withfn_offer A (p : sgram A) fn lab m i ins left n l X rs x w w1 w2 :
    eff E s at_ A p m i (Rec ins (Some left)) w (ROffer n false l X rs) w1 -> left <> 0%Z ->
    fn s i w1 = (w2, Ret x) ->
    eff E s at_ A (XRecoverWithFn p fn lab) m i (Rec ins (Some left)) w
      (ROffer n false (at_ i) X (f_insert (Some 0) left x i (at_ i) (lab x) X :: rs)) w2
| ef_withfn_raise A (p : sgram A) fn lab m i ins left o e w w1 w2 :
    eff E s at_ A p m i (Rec ins (Some left)) w o w1 -> ~ settled o -> left <> 0%Z ->
    fn s i w1 = (w2, Raise e) ->
    eff E s at_ A (XRecoverWithFn p fn lab) m i (Rec ins (Some left)) w (RExn e) w2
(* layout *)
| ef_block A (p : sgram A) m i md o w w1 :
    eff E s at_ A p (loc_col (at_ i)) i md w o w1 ->
    eff E s at_ A (XBlock p) m i md w o w1
| ef_aligned A (p : sgram A) m i md o w w1 :
    loc_col (at_ i) = m -> eff E s at_ A p m i md w o w1 ->
    eff E s at_ A (XAligned p) m i md w o w1
| ef_aligned_no A (p : sgram A) m i md w :
    loc_col (at_ i) <> m ->
    eff E s at_ A (XAligned p) m i md w (RFail false (at_ i) ["indentation"%string]) w
| ef_indented A delta (p : sgram A) m i md o w w1 :
    loc_col (at_ i) = (m + delta)%Z -> eff E s at_ A p (loc_col (at_ i)) i md w o w1 ->
    eff E s at_ A (XIndented delta p) m i md w o w1
| ef_indented_no A delta (p : sgram A) m i md w :
    loc_col (at_ i) <> (m + delta)%Z ->
    eff E s at_ A (XIndented delta p) m i md w (RFail false (at_ i) ["indentation"%string]) w
(* forward references *)
| ef_delay d m i md o w w1 :
    eff E s at_ (V d) (E d) m i md w o w1 -> eff E s at_ (V d) (XDelay d) m i md w o w1

(** the repairs [rs] in order, each continued with the parser that [k] returns for its
    value; an exception ends it *)
with econts (E : senv St T V) (s : list T) (at_ : nat -> loc)
  : forall A B C, (A -> St -> St * out (sgram B)) -> (A -> B -> C) -> Z -> Z -> list (offer A) ->
    St -> list (offer C) + exn -> St -> Prop :=
| ec_nil A B C (k : A -> St -> St * out (sgram B)) (merge : A -> B -> C) m ins w :
    econts E s at_ A B C k merge m ins [] w (inl []) w
| ec_succ A B C (k : A -> St -> St * out (sgram B)) (merge : A -> B -> C) m ins r rs q v j Y rs' w w1 w2 w3 :
    k (f_val r) w = (w1, Ret q) ->
    eff E s at_ B q m (f_pos r) (Rec ins (Some (f_left r))) w1 (RSucc v j Y) w2 ->
    econts E s at_ A B C k merge m ins rs w2 (inl rs') w3 ->
    econts E s at_ A B C k merge m ins (r :: rs) w (inl (f_then_succ ins merge r v j Y :: rs')) w3
| ec_offer A B C (k : A -> St -> St * out (sgram B)) (merge : A -> B -> C) m ins r rs q n b l Y rs1 rs' w w1 w2 w3 :
    k (f_val r) w = (w1, Ret q) ->
    eff E s at_ B q m (f_pos r) (Rec ins (Some (f_left r))) w1 (ROffer n b l Y rs1) w2 ->
    econts E s at_ A B C k merge m ins rs w2 (inl rs') w3 ->
    econts E s at_ A B C k merge m ins (r :: rs) w (inl (map (f_then_repair merge r) rs1 ++ rs')) w3
| ec_fail A B C (k : A -> St -> St * out (sgram B)) (merge : A -> B -> C) m ins r rs q b l Y rs' w w1 w2 w3 :
    k (f_val r) w = (w1, Ret q) ->
    eff E s at_ B q m (f_pos r) (Rec ins (Some (f_left r))) w1 (RFail b l Y) w2 ->
    econts E s at_ A B C k merge m ins rs w2 (inl rs') w3 ->
    econts E s at_ A B C k merge m ins (r :: rs) w (inl rs') w3
| ec_raise A B C (k : A -> St -> St * out (sgram B)) (merge : A -> B -> C) m ins r rs e w w1 :
    k (f_val r) w = (w1, Raise e) ->
    econts E s at_ A B C k merge m ins (r :: rs) w (inr e) w1
| ec_exn A B C (k : A -> St -> St * out (sgram B)) (merge : A -> B -> C) m ins r rs q e w w1 w2 :
    k (f_val r) w = (w1, Ret q) ->
    eff E s at_ B q m (f_pos r) (Rec ins (Some (f_left r))) w1 (RExn e) w2 ->
    econts E s at_ A B C k merge m ins (r :: rs) w (inr e) w2
| ec_exn_later A B C (k : A -> St -> St * out (sgram B)) (merge : A -> B -> C) m ins r rs q o e w w1 w2 w3 :
    k (f_val r) w = (w1, Ret q) ->
    eff E s at_ B q m (f_pos r) (Rec ins (Some (f_left r))) w1 o w2 -> no_exn o ->
    econts E s at_ A B C k merge m ins rs w2 (inr e) w3 ->
    econts E s at_ A B C k merge m ins (r :: rs) w (inr e) w3.
End Effect.
