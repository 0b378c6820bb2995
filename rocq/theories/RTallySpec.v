(** How many parse functions a parse with recovery calls, and how deeply the
    calls nest: specification, by rules over the outcomes of the parts ([rsem]).

    As in [TallySpec.v] a call counts one.  With recovery every combinator is
    called, also [recover], [recover_with] and [recover_with_fn]; a choice of
    which no alternative starts calls both alternatives once more, to get
    their repairs; and the rest of a sequence is called once after every
    repair of its first part.  [op] is as in [TallySpec.v]. *)
From Verif Require Export RecSpec TallySpec.

Section RTally.
Context {T : Type} {V : nat -> Type}.
Notation gram := (gram T V).
Variable op : nat -> nat -> nat.
Variable E : env T V.
Variable s : list T.
Variable at_ : nat -> loc.
Notation outcome := (rsem E s at_).

(** the first part failed without repairs, or raised an exception *)
Definition ends_sequence {A} (o : rres A) : Prop :=
  (exists b l X, o = RFail b l X) \/ (exists e, o = RExn e).
Definition is_exn {A} (o : rres A) : Prop := exists e, o = RExn e.

Inductive rtally : forall A, gram A -> Z -> nat -> Z -> option Z -> nat -> Prop :=
| rt_primitive A (g : gram A) m i ins rem : primitive g -> rtally A g m i ins rem 1
| rt_fmap A B (p : gram A) (f : A -> out B) m i ins rem k :
    rtally A p m i ins rem k -> rtally B (GFmap p f) m i ins rem (S k)
(* first the alternatives are called without recovery *)
| rt_alt_one A (p q : gram A) m i ins rem o k :
    outcome A p m i ins None o -> settled o ->
    rtally A p m i ins None k -> rtally A (GAlt p q) m i ins rem (S k)
| rt_alt_two A (p q : gram A) m i ins rem l X o a b :
    outcome A p m i ins None (RFail false l X) ->
    outcome A q m i ins None o -> settled o \/ rem = None ->
    rtally A p m i ins None a -> rtally A q m i ins None b ->
    rtally A (GAlt p q) m i ins rem (S (op a b))
(* then, if neither starts, with it *)
| rt_alt_again A (p q : gram A) m i ins left l X l' Y o a b c d :
    outcome A p m i ins None (RFail false l X) ->
    outcome A q m i ins None (RFail false l' Y) ->
    outcome A p m i ins (Some left) o -> ~ is_exn o ->
    rtally A p m i ins None a -> rtally A q m i ins None b ->
    rtally A p m i ins (Some left) c -> rtally A q m i ins (Some left) d ->
    rtally A (GAlt p q) m i ins (Some left) (S (op a (op b (op c d))))
| rt_alt_again_exn A (p q : gram A) m i ins left l X l' Y o a b c :
    outcome A p m i ins None (RFail false l X) ->
    outcome A q m i ins None (RFail false l' Y) ->
    outcome A p m i ins (Some left) o -> is_exn o ->
    rtally A p m i ins None a -> rtally A q m i ins None b ->
    rtally A p m i ins (Some left) c ->
    rtally A (GAlt p q) m i ins (Some left) (S (op a (op b c)))
(* the second part is run after a success or after every repair *)
| rt_bind_one A B (p : gram A) (f : A -> gram B) m i ins rem o k :
    outcome A p m i ins rem o -> ends_sequence o ->
    rtally A p m i ins rem k -> rtally B (GBind p f) m i ins rem (S k)
| rt_bind_both A B (p : gram A) (f : A -> gram B) m i ins rem v j X a b :
    outcome A p m i ins rem (RSucc v j X) ->
    rtally A p m i ins rem a ->
    rtally B (f v) m j ins (if Nat.ltb i j then Some ins else rem) b ->
    rtally B (GBind p f) m i ins rem (S (op a b))
| rt_bind_repairs A B (p : gram A) (f : A -> gram B) m i ins rem n b l X rs a c :
    outcome A p m i ins rem (ROffer n b l X rs) ->
    rtally A p m i ins rem a -> rtallies A B f m ins rs c ->
    rtally B (GBind p f) m i ins rem (S (op a c))
| rt_seq_one A B C (p : gram A) (q : gram B) (merge : A -> B -> C) m i ins rem o k :
    outcome A p m i ins rem o -> ends_sequence o ->
    rtally A p m i ins rem k -> rtally C (GSeq p q merge) m i ins rem (S k)
| rt_seq_both A B C (p : gram A) (q : gram B) (merge : A -> B -> C) m i ins rem v j X a b :
    outcome A p m i ins rem (RSucc v j X) ->
    rtally A p m i ins rem a ->
    rtally B q m j ins (if Nat.ltb i j then Some ins else rem) b ->
    rtally C (GSeq p q merge) m i ins rem (S (op a b))
| rt_seq_repairs A B C (p : gram A) (q : gram B) (merge : A -> B -> C) m i ins rem n b l X rs a c :
    outcome A p m i ins rem (ROffer n b l X rs) ->
    rtally A p m i ins rem a -> rtallies A B (fun _ => q) m ins rs c ->
    rtally C (GSeq p q merge) m i ins rem (S (op a c))
| rt_maybe A (p : gram A) m i ins rem k :
    rtally A p m i ins None k -> rtally _ (GMaybe p) m i ins rem (S k)
(* [many] is one call: its loop calls the part until this does not consume;
   after a repair of the part [many] is called again *)
| rt_many_last A (p : gram A) m i ins rem o k :
    outcome A p m i ins None o ->
    ends_sequence o \/ (exists v X, o = RSucc v i X) ->
    rtally A p m i ins None k -> rtally _ (GMany p) m i ins rem (S k)
| rt_many_more A (p : gram A) m i ins rem v j X a b :
    outcome A p m i ins None (RSucc v j X) -> i < j ->
    rtally A p m i ins None a -> rtally _ (GMany p) m j ins rem (S b) ->
    rtally _ (GMany p) m i ins rem (S (op a b))
| rt_many_repairs A (p : gram A) m i ins rem n b l X rs a c :
    outcome A p m i ins None (ROffer n b l X rs) ->
    rtally A p m i ins None a -> rtallies A (list A) (fun _ => GMany p) m ins rs c ->
    rtally _ (GMany p) m i ins rem (S (op a c))
(* [attempt] runs its part without recovery unless recovery is allowed *)
| rt_attempt A (p : gram A) m i ins left k :
    rtally A p m i ins (Some left) k -> rtally A (GAttempt p) m i ins (Some left) (S k)
| rt_attempt_plain A (p : gram A) m i ins k :
    tally op E s at_ A p m i k -> rtally A (GAttempt p) m i ins None (S k)
| rt_label A (p : gram A) x m i ins rem k :
    rtally A p m i ins rem k -> rtally A (GLabel p x) m i ins rem (S k)
| rt_recover A (p : gram A) m i ins rem k :
    rtally A p m i ins rem k -> rtally A (GRecover p) m i ins rem (S k)
| rt_with A (p : gram A) x l m i ins rem k :
    rtally A p m i ins rem k -> rtally A (GRecoverWith p x l) m i ins rem (S k)
| rt_withfn A (p : gram A) fn lab m i ins rem k :
    rtally A p m i ins rem k -> rtally A (GRecoverWithFn p fn lab) m i ins rem (S k)
| rt_block A (p : gram A) m i ins rem k :
    rtally A p (loc_col (at_ i)) i ins rem k -> rtally A (GBlock p) m i ins rem (S k)
| rt_aligned A (p : gram A) m i ins rem k : loc_col (at_ i) = m ->
    rtally A p m i ins rem k -> rtally A (GAligned p) m i ins rem (S k)
| rt_aligned_no A (p : gram A) m i ins rem : loc_col (at_ i) <> m ->
    rtally A (GAligned p) m i ins rem 1
| rt_indented A delta (p : gram A) m i ins rem k : loc_col (at_ i) = (m + delta)%Z ->
    rtally A p (loc_col (at_ i)) i ins rem k -> rtally A (GIndented delta p) m i ins rem (S k)
| rt_indented_no A delta (p : gram A) m i ins rem : loc_col (at_ i) <> (m + delta)%Z ->
    rtally A (GIndented delta p) m i ins rem 1
| rt_delay d m i ins rem k :
    rtally (V d) (E d) m i ins rem k -> rtally (V d) (GDelay d) m i ins rem (S k)
(** the calls of the rest, after every repair, up to an exception *)
with rtallies : forall A B, (A -> gram B) -> Z -> Z -> list (offer A) -> nat -> Prop :=
| rts_nil A B (k : A -> gram B) m ins : rtallies A B k m ins [] 0
| rts_more A B (k : A -> gram B) m ins r rs o a c :
    outcome B (k (f_val r)) m (f_pos r) ins (Some (f_left r)) o -> ~ is_exn o ->
    rtally B (k (f_val r)) m (f_pos r) ins (Some (f_left r)) a ->
    rtallies A B k m ins rs c -> rtallies A B k m ins (r :: rs) (op a c)
| rts_exn A B (k : A -> gram B) m ins r rs o a :
    outcome B (k (f_val r)) m (f_pos r) ins (Some (f_left r)) o -> is_exn o ->
    rtally B (k (f_val r)) m (f_pos r) ins (Some (f_left r)) a ->
    rtallies A B k m ins (r :: rs) a.
End RTally.
