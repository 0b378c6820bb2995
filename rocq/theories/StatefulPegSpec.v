(** Specification for C80: the documented rules of parsing without recovery (as in
    [PegSpec.v]) for callbacks that read and change a shared state.  The judgement
    [speg E s col A g m i w o w'] says: the parser [g], started at position [i] with
    column mark [m] in the state [w], has the outcome [o] (a value and an end position, a
    failure, or an exception) and leaves the state [w'].  The rules say which callbacks
    run and in which order; the state is threaded through them and never put back. *)
From Verif Require Export StatefulSpec PegSpec.

Section SPeg.
Context {St T : Type} {V : nat -> Type}.
Notation sgram := (sgram St T V).

(** [P] holds of [g] and of every parser inside it (for [bind], of every parser that the
    callback can return in any state) *)
Fixpoint sall (P : forall A, sgram A -> Prop) {A} (g : sgram A) : Prop :=
  P A g /\
  match g with
  | XFmap p _ => sall P p
  | XAlt p q => sall P p /\ sall P q
  | XBind p f => sall P p /\
      forall v w, match f v w with (_, Ret q) => sall P q | _ => True end
  | XSeq p q _ => sall P p /\ sall P q
  | XMaybe p => sall P p
  | XMany p => sall P p
  | XAttempt p | XLabel p _ | XRecover p | XRecoverWith p _ _ | XRecoverWithFn p _ _
  | XBlock p | XAligned p | XIndented _ p => sall P p
  | _ => True
  end.
(** the assumptions of [wf] in [Spec.v] about regular expressions and literals *)
Definition swf_node A (g : sgram A) : Prop :=
  match g with
  | XRegexp m => forall s pos e v, pos <= List.length s ->
      m s pos = Some (e, v) -> pos <= e <= List.length s
  | XLiteral _ x _ => x <> []
  | _ => True
  end.
Definition swf {A} (g : sgram A) : Prop := sall swf_node g.
Definition swf_env (E : senv St T V) : Prop := forall d, swf (E d).
Definition sis_layout A (g : sgram A) : Prop :=
  match g with XBlock _ | XAligned _ | XIndented _ _ => True | _ => False end.
Definition sno_layout {A} (g : sgram A) : Prop := sall (fun A g => ~ sis_layout A g) g.
(** layout combinators need locations that know their position *)
Definition slay_ok (E : senv St T V) {A} (g : sgram A) (s : list T) (locof : nat -> loc) : Prop :=
  exactpos s locof \/ (sno_layout g /\ forall d, sno_layout (E d)).

Inductive speg (E : senv St T V) (s : list T) (col : nat -> Z)
  : forall A, sgram A -> Z -> nat -> St -> pres A -> St -> Prop :=
(* primitives; only pure_fn and satisfy call back *)
| sp_pure A (x : A) m i w : speg E s col A (XPure x) m i w (PSucc x i) w
| sp_purefn A (f : unit -> st St A) v m i w w' :
    f tt w = (w', Ret v) -> speg E s col A (XPureFn f) m i w (PSucc v i) w'
| sp_purefn_exn A (f : unit -> st St A) e m i w w' :
    f tt w = (w', Raise e) -> speg E s col A (XPureFn f) m i w (PExn e) w'
| sp_unexpected A l m i w : speg E s col A (XUnexpected l) m i w (PFail false) w
| sp_eof m w : speg E s col unit XEof m (List.length s) w (PSucc tt (List.length s)) w
| sp_eof_fail m i w : i <> List.length s -> speg E s col unit XEof m i w (PFail false) w
| sp_sat test t m i w w' : nth_error s i = Some t -> test t w = (w', Ret true) ->
    speg E s col T (XSatisfy test) m i w (PSucc t (i + 1)) w'
| sp_sat_no test t m i w w' : nth_error s i = Some t -> test t w = (w', Ret false) ->
    speg E s col T (XSatisfy test) m i w (PFail false) w'
| sp_sat_end test m i w : nth_error s i = None ->
    speg E s col T (XSatisfy test) m i w (PFail false) w
| sp_sat_exn test t e m i w w' : nth_error s i = Some t -> test t w = (w', Raise e) ->
    speg E s col T (XSatisfy test) m i w (PExn e) w'
| sp_sym teq x l t m i w : nth_error s i = Some t -> teq t x = true ->
    speg E s col T (XSym teq x l) m i w (PSucc t (i + 1)) w
| sp_sym_no teq x l m i w :
    (forall t, nth_error s i = Some t -> teq t x = false) ->
    speg E s col T (XSym teq x l) m i w (PFail false) w
| sp_lit teq x l m i w : stands_at teq x s i = true ->
    speg E s col (list T) (XLiteral teq x l) m i w (PSucc x (i + List.length x)) w
| sp_lit_no teq x l m i w : stands_at teq x s i = false ->
    speg E s col (list T) (XLiteral teq x l) m i w (PFail false) w
| sp_re A (re : list T -> nat -> option (nat * option A)) e v m i w :
    re s i = Some (e, Some v) -> speg E s col A (XRegexp re) m i w (PSucc v e) w
| sp_re_no A (re : list T -> nat -> option (nat * option A)) m i w :
    ~ re_matches re s i -> speg E s col A (XRegexp re) m i w (PFail false) w
(* fmap: the callback runs after the parser, and only if it succeeded *)
| sp_fmap A B (p : sgram A) (f : A -> st St B) m i v j x w w1 w2 :
    speg E s col A p m i w (PSucc v j) w1 -> f v w1 = (w2, Ret x) ->
    speg E s col B (XFmap p f) m i w (PSucc x j) w2
| sp_fmap_raise A B (p : sgram A) (f : A -> st St B) m i v j e w w1 w2 :
    speg E s col A p m i w (PSucc v j) w1 -> f v w1 = (w2, Raise e) ->
    speg E s col B (XFmap p f) m i w (PExn e) w2
| sp_fmap_fail A B (p : sgram A) (f : A -> st St B) m i b w w1 :
    speg E s col A p m i w (PFail b) w1 -> speg E s col B (XFmap p f) m i w (PFail b) w1
| sp_fmap_exn A B (p : sgram A) (f : A -> st St B) m i e w w1 :
    speg E s col A p m i w (PExn e) w1 -> speg E s col B (XFmap p f) m i w (PExn e) w1
(* choice: the second alternative runs only if the first failed without consuming, and
   starts in the state that the first one left *)
| sp_alt_l A (p q : sgram A) m i v j w w1 :
    speg E s col A p m i w (PSucc v j) w1 -> speg E s col A (XAlt p q) m i w (PSucc v j) w1
| sp_alt_fail A (p q : sgram A) m i w w1 :
    speg E s col A p m i w (PFail true) w1 -> speg E s col A (XAlt p q) m i w (PFail true) w1
| sp_alt_exn A (p q : sgram A) m i e w w1 :
    speg E s col A p m i w (PExn e) w1 -> speg E s col A (XAlt p q) m i w (PExn e) w1
| sp_alt_r A (p q : sgram A) m i o w w1 w2 :
    speg E s col A p m i w (PFail false) w1 -> speg E s col A q m i w1 o w2 ->
    speg E s col A (XAlt p q) m i w o w2
(* sequencing: left to right; the callback of bind runs between the two parsers *)
| sp_bind A B (p : sgram A) (f : A -> St -> St * out (sgram B)) m i v j q o w w1 w2 w3 :
    speg E s col A p m i w (PSucc v j) w1 -> f v w1 = (w2, Ret q) ->
    speg E s col B q m j w2 o w3 ->
    speg E s col B (XBind p f) m i w (after i j o) w3
| sp_bind_raise A B (p : sgram A) (f : A -> St -> St * out (sgram B)) m i v j e w w1 w2 :
    speg E s col A p m i w (PSucc v j) w1 -> f v w1 = (w2, Raise e) ->
    speg E s col B (XBind p f) m i w (PExn e) w2
| sp_bind_fail A B (p : sgram A) (f : A -> St -> St * out (sgram B)) m i b w w1 :
    speg E s col A p m i w (PFail b) w1 -> speg E s col B (XBind p f) m i w (PFail b) w1
| sp_bind_exn A B (p : sgram A) (f : A -> St -> St * out (sgram B)) m i e w w1 :
    speg E s col A p m i w (PExn e) w1 -> speg E s col B (XBind p f) m i w (PExn e) w1
| sp_seq A B C (p : sgram A) (q : sgram B) (merge : A -> B -> C) m i v j o w w1 w2 :
    speg E s col A p m i w (PSucc v j) w1 -> speg E s col B q m j w1 o w2 ->
    speg E s col C (XSeq p q merge) m i w (on_value (merge v) (after i j o)) w2
| sp_seq_fail A B C (p : sgram A) (q : sgram B) (merge : A -> B -> C) m i b w w1 :
    speg E s col A p m i w (PFail b) w1 -> speg E s col C (XSeq p q merge) m i w (PFail b) w1
| sp_seq_exn A B C (p : sgram A) (q : sgram B) (merge : A -> B -> C) m i e w w1 :
    speg E s col A p m i w (PExn e) w1 -> speg E s col C (XSeq p q merge) m i w (PExn e) w1
(* optional part: what a failed part did to the state stays *)
| sp_maybe A (p : sgram A) m i v j w w1 :
    speg E s col A p m i w (PSucc v j) w1 -> speg E s col _ (XMaybe p) m i w (PSucc (Some v) j) w1
| sp_maybe_none A (p : sgram A) m i w w1 :
    speg E s col A p m i w (PFail false) w1 -> speg E s col _ (XMaybe p) m i w (PSucc None i) w1
| sp_maybe_fail A (p : sgram A) m i w w1 :
    speg E s col A p m i w (PFail true) w1 -> speg E s col _ (XMaybe p) m i w (PFail true) w1
| sp_maybe_exn A (p : sgram A) m i e w w1 :
    speg E s col A p m i w (PExn e) w1 -> speg E s col _ (XMaybe p) m i w (PExn e) w1
(* repetition: one item after the other, then the trial that ended it *)
| sp_many_more A (p : sgram A) m i v j o w w1 w2 :
    i < j -> speg E s col A p m i w (PSucc v j) w1 -> speg E s col _ (XMany p) m j w1 o w2 ->
    speg E s col _ (XMany p) m i w (on_value (cons v) o) w2
| sp_many_empty A (p : sgram A) m i v w w1 :
    speg E s col A p m i w (PSucc v i) w1 -> speg E s col _ (XMany p) m i w (PExn ManyEmpty) w1
| sp_many_stop A (p : sgram A) m i w w1 :
    speg E s col A p m i w (PFail false) w1 -> speg E s col _ (XMany p) m i w (PSucc [] i) w1
| sp_many_fail A (p : sgram A) m i w w1 :
    speg E s col A p m i w (PFail true) w1 -> speg E s col _ (XMany p) m i w (PFail true) w1
| sp_many_exn A (p : sgram A) m i e w w1 :
    speg E s col A p m i w (PExn e) w1 -> speg E s col _ (XMany p) m i w (PExn e) w1
(* attempt takes back the position, not the effects *)
| sp_attempt A (p : sgram A) m i v j w w1 :
    speg E s col A p m i w (PSucc v j) w1 -> speg E s col A (XAttempt p) m i w (PSucc v j) w1
| sp_attempt_fail A (p : sgram A) m i b w w1 :
    speg E s col A p m i w (PFail b) w1 -> speg E s col A (XAttempt p) m i w (PFail false) w1
| sp_attempt_exn A (p : sgram A) m i e w w1 :
    speg E s col A p m i w (PExn e) w1 -> speg E s col A (XAttempt p) m i w (PExn e) w1
(* annotations; the callback of recover_with_fn does not run *)
| sp_label A (p : sgram A) x m i o w w1 :
    speg E s col A p m i w o w1 -> speg E s col A (XLabel p x) m i w o w1
| sp_recover A (p : sgram A) m i o w w1 :
    speg E s col A p m i w o w1 -> speg E s col A (XRecover p) m i w o w1
| sp_with A (p : sgram A) x l m i o w w1 :
    speg E s col A p m i w o w1 -> speg E s col A (XRecoverWith p x l) m i w o w1
| sp_withfn A (p : sgram A) fn lab m i o w w1 :
    speg E s col A p m i w o w1 -> speg E s col A (XRecoverWithFn p fn lab) m i w o w1
(* layout *)
| sp_block A (p : sgram A) m i o w w1 :
    speg E s col A p (col i) i w o w1 -> speg E s col A (XBlock p) m i w o w1
| sp_aligned A (p : sgram A) m i o w w1 :
    col i = m -> speg E s col A p m i w o w1 -> speg E s col A (XAligned p) m i w o w1
| sp_aligned_no A (p : sgram A) m i w :
    col i <> m -> speg E s col A (XAligned p) m i w (PFail false) w
| sp_indented A delta (p : sgram A) m i o w w1 :
    col i = (m + delta)%Z -> speg E s col A p (col i) i w o w1 ->
    speg E s col A (XIndented delta p) m i w o w1
| sp_indented_no A delta (p : sgram A) m i w :
    col i <> (m + delta)%Z -> speg E s col A (XIndented delta p) m i w (PFail false) w
(* forward references *)
| sp_delay d m i o w w1 :
    speg E s col (V d) (E d) m i w o w1 -> speg E s col (V d) (XDelay d) m i w o w1
| sp_undef A m i w : speg E s col A XUndef m i w (PExn DelayUndefined) w.
End SPeg.
