(** Declarative big-step semantics of parsing with recovery: which repairs a
    parser offers, in which order, what they cost and what they report.

    A run at position [i] with column mark [m], with [ins] insertions allowed
    in a row and [rem] the number of them left ([None]: recovery may not start
    here) has one of the outcomes
    - [RSucc v j X]: success, with pending expectations [X] (see DiagSpec.v);
    - [RFail b l X]: failure without repairs, at [l], expecting [X]; [b]: input
      was consumed before;
    - [ROffer near b l X rs]: failure with the repairs [rs], in order of
      preference; [near] is the distance of the nearest token that would have
      been accepted at the failure, if known;
    - [RExn e]: exception.
    Negative [ins] and [rem] mean "no limit". *)
From Verif Require Export DiagSpec Api.

(** A repair: cost; rank ([None] for automatic insertions); insertions left;
    the operations with the location, expectations and "closed" flag of the
    error they report; value and position after the repair; expectations
    pending there; whether these are closed, i.e. something was read or
    inserted since the failure. *)
Record offer (A : Type) : Type := Offer {
  f_cost : nat;
  f_rank : option nat;
  f_left : Z;
  f_ops : list opitem;
  f_val : A;
  f_pos : nat;
  f_exp : list string;
  f_con : bool
}.
Arguments Offer {A}. Arguments f_cost {A}. Arguments f_rank {A}. Arguments f_left {A}.
Arguments f_ops {A}. Arguments f_val {A}. Arguments f_pos {A}. Arguments f_exp {A}.
Arguments f_con {A}.

Inductive rres (A : Type) : Type :=
| RSucc (v : A) (j : nat) (pending : list string)
| RFail (committed : bool) (l : loc) (expected : list string)
| ROffer (near : option nat) (committed : bool) (l : loc) (expected : list string)
    (repairs : list (offer A))
| RExn (e : exn).
Arguments RSucc {A}. Arguments RFail {A}. Arguments ROffer {A}. Arguments RExn {A}.

(** ** Elementary repairs *)
(** a single reported operation *)
Definition one_op (o : rop) (l : loc) (X : list string) : list opitem :=
  [{| op_op := o; op_loc := l; op_exp := X; op_con := false |}].
Definition f_insert {A} (rank : option nat) (left : Z) (x : A) (i : nat) (l : loc)
    (label : string) (X : list string) : offer A :=
  {| f_cost := 1; f_rank := rank; f_left := (left - 1)%Z;
     f_ops := one_op (Insert label) l X;
     f_val := x; f_pos := i; f_exp := []; f_con := true |}.
Definition f_skip {A} (ins : Z) (x : A) (j : nat) (l : loc) (count : nat)
    (X : list string) (closed : bool) : offer A :=
  {| f_cost := count; f_rank := Some 0; f_left := ins;
     f_ops := one_op (Skip count) l X;
     f_val := x; f_pos := j; f_exp := []; f_con := closed |}.

(** ** Expectations of reported errors *)
(** expectations that were pending before, prepended as long as the error (or
    the end of the repair) is not closed; [b]: closed by now *)
Definition op_after (b : bool) (X : list string) (o : opitem) : opitem :=
  if op_con o then o
  else {| op_op := op_op o; op_loc := op_loc o; op_exp := X ++ op_exp o; op_con := b |}.
Definition f_after {A} (b : bool) (X : list string) (r : offer A) : offer A :=
  {| f_cost := f_cost r; f_rank := f_rank r; f_left := f_left r;
     f_ops := map (op_after b X) (f_ops r);
     f_val := f_val r; f_pos := f_pos r;
     f_exp := if f_con r then f_exp r else X ++ f_exp r;
     f_con := f_con r || b |}.
(** renaming *)
Definition op_rename (X : list string) (o : opitem) : opitem :=
  if op_con o then o
  else {| op_op := op_op o; op_loc := op_loc o; op_exp := X; op_con := false |}.
Definition f_rename {A} (X : list string) (r : offer A) : offer A :=
  {| f_cost := f_cost r; f_rank := f_rank r; f_left := f_left r;
     f_ops := map (op_rename X) (f_ops r);
     f_val := f_val r; f_pos := f_pos r;
     f_exp := if f_con r then f_exp r else X; f_con := f_con r |}.

(** ** Values *)
Definition f_with {A B} (r : offer A) (v : B) : offer B :=
  {| f_cost := f_cost r; f_rank := f_rank r; f_left := f_left r; f_ops := f_ops r;
     f_val := v; f_pos := f_pos r; f_exp := f_exp r; f_con := f_con r |}.
(** a callback applied to the value of every repair, in order *)
Fixpoint f_map {A B} (f : A -> out B) (rs : list (offer A)) : out (list (offer B)) :=
  match rs with
  | [] => Ret []
  | r :: rs =>
      match f (f_val r) with
      | Ret v =>
          match f_map f rs with
          | Ret rs' => Ret (f_with r v :: rs') | Raise e => Raise e | NoFuel => NoFuel
          end
      | Raise e => Raise e
      | NoFuel => NoFuel
      end
  end.
Definition on_rvalue {A B} (f : A -> B) (o : rres A) : rres B :=
  match o with
  | RSucc v j X => RSucc (f v) j X
  | RFail b l X => RFail b l X
  | ROffer n b l X rs => ROffer n b l X (map (fun r => f_with r (f (f_val r))) rs)
  | RExn e => RExn e
  end.

(** ** Sequencing *)
(** the outcome [o] of the rest, started at [j] after a success from [i] to [j]
    that left [X] pending *)
Definition r_after {A} (i j : nat) (X : list string) (o : rres A) : rres A :=
  match o with
  | RSucc v k Y => RSucc v k (if Nat.ltb j k then Y else X ++ Y)
  | RFail b l Y => RFail (b || Nat.ltb i j) l (if b then Y else X ++ Y)
  | ROffer n b l Y rs =>
      ROffer n (b || Nat.ltb i j) l (if b then Y else X ++ Y)
        (map (f_after (Nat.ltb i j) X) rs)
  | RExn e => RExn e
  end.
(** a repair followed by a success of the rest; reading input renews the
    allowance of insertions *)
Definition f_then_succ {A B C} (ins : Z) (merge : A -> B -> C) (r : offer A)
    (w : B) (k : nat) (Y : list string) : offer C :=
  {| f_cost := f_cost r; f_rank := f_rank r;
     f_left := if Nat.eqb (f_pos r) k then f_left r else ins;
     f_ops := f_ops r; f_val := merge (f_val r) w; f_pos := k;
     f_exp := if Nat.ltb (f_pos r) k then Y else f_exp r ++ Y;
     f_con := f_con r || Nat.ltb (f_pos r) k |}.
(** a repair followed by a repair [r'] of the rest *)
Definition f_then_repair {A B C} (merge : A -> B -> C) (r : offer A) (r' : offer B)
    : offer C :=
  {| f_cost := f_cost r + f_cost r'; f_rank := f_rank r; f_left := f_left r';
     f_ops := f_ops r ++ map (op_after (f_con r) (f_exp r)) (f_ops r');
     f_val := merge (f_val r) (f_val r'); f_pos := f_pos r';
     f_exp := if f_con r' then f_exp r' else f_exp r ++ f_exp r';
     f_con := f_con r || f_con r' |}.

(** ** Choice *)
(** the second alternative, after the first one failed at [l] without
    consuming and without repairs, expecting [X] *)
Definition r_else {A} (i : nat) (X : list string) (o : rres A) : rres A :=
  match o with
  | RSucc v k Y => RSucc v k (if Nat.ltb i k then Y else X ++ Y)
  | o => o
  end.
(** does the outcome settle the choice? *)
Definition settled {A} (o : rres A) : Prop :=
  match o with
  | RSucc _ _ _ => True | RFail b _ _ => b = true | ROffer _ b _ _ _ => b = true
  | RExn _ => True
  end.
Definition min_near (a b : option nat) : option nat :=
  match a, b with
  | Some x, Some y => Some (Nat.min x y) | Some x, None => Some x | None, b => b
  end.
(** automatic insertions of later alternatives are not offered *)
Definition eligible {A} (near : option nat) (r : offer A) : bool :=
  match f_rank r, near with
  | None, _ => false | Some p, Some n => Nat.ltb p n | Some _, None => true
  end.
Definition relabelled {A} (X : list string) (o : rres A) : rres A :=
  match o with
  | ROffer n b l Y rs => ROffer n b l (if b then Y else X) (map (f_rename X) rs)
  | o => o
  end.
(** both alternatives failed at [i] without consuming ([l]: where the first one
    did; [X]: what both expected); [o1], [o2] are their outcomes when recovery
    is allowed *)
Definition r_choice {A} (l : loc) (X : list string) (o1 o2 : rres A) : rres A :=
  match o1, o2 with
  | RExn e, _ => RExn e
  | _, RExn e => RExn e
  | ROffer n1 b1 l1 X1 rs1, ROffer n2 b2 l2 X2 rs2 =>
      relabelled X
        (ROffer (min_near n1 n2) (b1 || b2)
           (if b1 then l1 else if b2 then l2 else l1)
           (if b1 then X1 else if b2 then X2 else X1 ++ X2)
           (rs1 ++ filter (eligible n1) rs2))
  | ROffer _ _ _ _ _, _ => relabelled X o1
  | _, ROffer _ _ _ _ _ => relabelled X o2
  | _, _ => RFail false l X
  end.

(** ** Annotations *)
Definition r_label {A} (i : nat) (x : string) (o : rres A) : rres A :=
  match o with
  | RSucc v k Y => RSucc v k (if Nat.ltb i k then Y else [x])
  | RFail b l Y => RFail b l (if b then Y else [x])
  | ROffer n b l Y rs => ROffer n b l (if b then Y else [x]) (map (f_rename [x]) rs)
  | RExn e => RExn e
  end.
(** [recover]: automatic insertions are ranked like the ones of the user *)
Definition f_ranked {A} (r : offer A) : offer A :=
  {| f_cost := f_cost r;
     f_rank := match f_rank r with None => Some 0 | Some p => Some p end;
     f_left := f_left r; f_ops := f_ops r; f_val := f_val r; f_pos := f_pos r;
     f_exp := f_exp r; f_con := f_con r |}.
Definition r_ranked {A} (o : rres A) : rres A :=
  match o with
  | ROffer n b l Y rs => ROffer n b l Y (map f_ranked rs) | o => o
  end.

(** the outcome of a run without recovery *)
Definition plain {A} (o : dres A) : rres A :=
  match o with
  | DSucc v j X => RSucc v j X | DFail b l X => RFail b l X | DExn e => RExn e
  end.

(** ** Searching the next match.  [hit j x]: something is accepted at [j] *)
Section Seek.
Context {T X : Type}.
Definition next_hit (s : list T) (hit : nat -> X -> Prop) (miss : nat -> Prop)
    (i j : nat) (x : X) : Prop :=
  i < j < List.length s /\ hit j x /\ forall k, i < k < j -> miss k.
Definition no_hit (s : list T) (miss : nat -> Prop) (i : nat) : Prop :=
  forall k, i < k < List.length s -> miss k.
End Seek.

Section Rec.
Context {T : Type} {V : nat -> Type}.
Notation gram := (gram T V).

Definition sym_hit (teq : T -> T -> bool) (x : T) (s : list T) (j : nat) (t : T) : Prop :=
  nth_error s j = Some t /\ teq t x = true.
Definition sym_miss (teq : T -> T -> bool) (x : T) (s : list T) (j : nat) : Prop :=
  forall t, nth_error s j = Some t -> teq t x = false.
Definition sat_hit (test : T -> out bool) (s : list T) (j : nat) (t : T) : Prop :=
  nth_error s j = Some t /\ test t = Ret true.
Definition sat_miss (test : T -> out bool) (s : list T) (j : nat) : Prop :=
  forall t, nth_error s j = Some t -> test t = Ret false.
Definition sat_raise (test : T -> out bool) (e : exn) (s : list T) (j : nat) : Prop :=
  exists t, nth_error s j = Some t /\ test t = Raise e.
Definition lit_hit (teq : T -> T -> bool) (x s : list T) (j : nat) (_ : unit) : Prop :=
  stands_at teq x s j = true.
Definition lit_miss (teq : T -> T -> bool) (x s : list T) (j : nat) : Prop :=
  stands_at teq x s j = false.
Definition re_hit {A} (re : list T -> nat -> option (nat * option A)) (s : list T)
    (j : nat) (ev : nat * A) : Prop := re s j = Some (fst ev, Some (snd ev)).
Definition re_miss {A} (re : list T -> nat -> option (nat * option A)) (s : list T)
    (j : nat) : Prop := ~ re_matches re s j.

(** the insertion offered if some are left *)
Definition insertions {A} (left : Z) (r : offer A) : list (offer A) :=
  if Z.eqb left 0 then [] else [r].

Inductive rsem (E : env T V) (s : list T) (at_ : nat -> loc)
  : forall A, gram A -> Z -> nat -> Z -> option Z -> rres A -> Prop :=
(* values *)
| rs_pure A (x : A) m i ins rem : rsem E s at_ A (GPure x) m i ins rem (RSucc x i [])
| rs_purefn A (f : unit -> out A) v m i ins rem :
    f tt = Ret v -> rsem E s at_ A (GPureFn f) m i ins rem (RSucc v i [])
| rs_purefn_exn A (f : unit -> out A) e m i ins rem :
    f tt = Raise e -> rsem E s at_ A (GPureFn f) m i ins rem (RExn e)
| rs_unexpected A l m i ins rem :
    rsem E s at_ A (GUnexpected l) m i ins rem (RFail false (at_ i) [l])
(* end of input: everything that is left can be skipped *)
| rs_eof m ins rem :
    rsem E s at_ unit GEof m (List.length s) ins rem (RSucc tt (List.length s) [])
| rs_eof_fail m i ins : i <> List.length s ->
    rsem E s at_ unit GEof m i ins None (RFail false (at_ i) ["end of file"%string])
| rs_eof_skip m i ins left : i <> List.length s ->
    rsem E s at_ unit GEof m i ins (Some left)
      (ROffer None false (at_ i) ["end of file"%string]
         [f_skip ins tt (List.length s) (at_ i) (List.length s - i) ["end of file"%string] false])
(* satisfy: skips to the next match *)
| rs_sat test t m i ins rem : sat_hit test s i t ->
    rsem E s at_ T (GSatisfy test) m i ins rem (RSucc t (i + 1) [])
| rs_sat_exn test e m i ins rem : sat_raise test e s i ->
    rsem E s at_ T (GSatisfy test) m i ins rem (RExn e)
| rs_sat_fail test m i ins : sat_miss test s i ->
    rsem E s at_ T (GSatisfy test) m i ins None (RFail false (at_ i) [])
| rs_sat_skip test m i ins left j t : sat_miss test s i ->
    next_hit s (sat_hit test s) (sat_miss test s) i j t ->
    rsem E s at_ T (GSatisfy test) m i ins (Some left)
      (ROffer (Some (j - i)) false (at_ i) []
         [f_skip ins t (j + 1) (at_ i) (j - i) [] true])
| rs_sat_none test m i ins left : sat_miss test s i ->
    no_hit s (sat_miss test s) i ->
    rsem E s at_ T (GSatisfy test) m i ins (Some left) (RFail false (at_ i) [])
| rs_sat_later_exn test m i ins left j e : sat_miss test s i ->
    next_hit s (fun j (_ : unit) => sat_raise test e s j) (sat_miss test s) i j tt ->
    rsem E s at_ T (GSatisfy test) m i ins (Some left) (RExn e)
(* sym: inserts the token or skips to the next match *)
| rs_sym teq x l t m i ins rem : sym_hit teq x s i t ->
    rsem E s at_ T (GSym teq x l) m i ins rem (RSucc t (i + 1) [])
| rs_sym_fail teq x l m i ins : sym_miss teq x s i ->
    rsem E s at_ T (GSym teq x l) m i ins None (RFail false (at_ i) [l])
| rs_sym_skip teq x l m i ins left j t : sym_miss teq x s i ->
    next_hit s (sym_hit teq x s) (sym_miss teq x s) i j t ->
    rsem E s at_ T (GSym teq x l) m i ins (Some left)
      (ROffer (Some (j - i)) false (at_ i) [l]
         (insertions left (f_insert None left x i (at_ i) l [l]) ++
          [f_skip ins t (j + 1) (at_ i) (j - i) [l] true]))
| rs_sym_none teq x l m i ins left : sym_miss teq x s i ->
    no_hit s (sym_miss teq x s) i ->
    rsem E s at_ T (GSym teq x l) m i ins (Some left)
      (ROffer None false (at_ i) [l]
         (insertions left (f_insert None left x i (at_ i) l [l])))
(* literal: the same for several characters *)
| rs_lit teq x l m i ins rem : lit_hit teq x s i tt ->
    rsem E s at_ (list T) (GLiteral teq x l) m i ins rem (RSucc x (i + List.length x) [])
| rs_lit_fail teq x l m i ins : lit_miss teq x s i ->
    rsem E s at_ (list T) (GLiteral teq x l) m i ins None (RFail false (at_ i) [l])
| rs_lit_skip teq x l m i ins left j : lit_miss teq x s i ->
    next_hit s (lit_hit teq x s) (lit_miss teq x s) i j tt ->
    rsem E s at_ (list T) (GLiteral teq x l) m i ins (Some left)
      (ROffer (Some (j - i)) false (at_ i) [l]
         (insertions left (f_insert None left x i (at_ i) l [l]) ++
          [f_skip ins x (j + List.length x) (at_ i) (j - i) [l] true]))
| rs_lit_none teq x l m i ins left : lit_miss teq x s i ->
    no_hit s (lit_miss teq x s) i ->
    rsem E s at_ (list T) (GLiteral teq x l) m i ins (Some left)
      (ROffer None false (at_ i) [l]
         (insertions left (f_insert None left x i (at_ i) l [l])))
(* regexp: skips to the next match *)
| rs_re A (re : list T -> nat -> option (nat * option A)) e v m i ins rem :
    re_hit re s i (e, v) -> rsem E s at_ A (GRegexp re) m i ins rem (RSucc v e [])
| rs_re_fail A (re : list T -> nat -> option (nat * option A)) m i ins :
    re_miss re s i -> rsem E s at_ A (GRegexp re) m i ins None (RFail false (at_ i) [])
| rs_re_skip A (re : list T -> nat -> option (nat * option A)) m i ins left j e v :
    re_miss re s i -> next_hit s (re_hit re s) (re_miss re s) i j (e, v) ->
    rsem E s at_ A (GRegexp re) m i ins (Some left)
      (ROffer (Some (j - i)) false (at_ i) [] [f_skip ins v e (at_ i) (j - i) [] true])
| rs_re_none A (re : list T -> nat -> option (nat * option A)) m i ins left :
    re_miss re s i -> no_hit s (re_miss re s) i ->
    rsem E s at_ A (GRegexp re) m i ins (Some left) (RFail false (at_ i) [])
(* fmap *)
| rs_fmap A B (p : gram A) (f : A -> out B) m i ins rem v j X w :
    rsem E s at_ A p m i ins rem (RSucc v j X) -> f v = Ret w ->
    rsem E s at_ B (GFmap p f) m i ins rem (RSucc w j X)
| rs_fmap_raise A B (p : gram A) (f : A -> out B) m i ins rem v j X e :
    rsem E s at_ A p m i ins rem (RSucc v j X) -> f v = Raise e ->
    rsem E s at_ B (GFmap p f) m i ins rem (RExn e)
| rs_fmap_fail A B (p : gram A) (f : A -> out B) m i ins rem b l X :
    rsem E s at_ A p m i ins rem (RFail b l X) ->
    rsem E s at_ B (GFmap p f) m i ins rem (RFail b l X)
| rs_fmap_offer A B (p : gram A) (f : A -> out B) m i ins rem n b l X rs rs' :
    rsem E s at_ A p m i ins rem (ROffer n b l X rs) -> f_map f rs = Ret rs' ->
    rsem E s at_ B (GFmap p f) m i ins rem (ROffer n b l X rs')
| rs_fmap_offer_raise A B (p : gram A) (f : A -> out B) m i ins rem n b l X rs e :
    rsem E s at_ A p m i ins rem (ROffer n b l X rs) -> f_map f rs = Raise e ->
    rsem E s at_ B (GFmap p f) m i ins rem (RExn e)
| rs_fmap_exn A B (p : gram A) (f : A -> out B) m i ins rem e :
    rsem E s at_ A p m i ins rem (RExn e) ->
    rsem E s at_ B (GFmap p f) m i ins rem (RExn e)
(* choice: first without recovery before the commitment, then with it *)
| rs_alt_l A (p q : gram A) m i ins rem o :
    rsem E s at_ A p m i ins None o -> settled o ->
    rsem E s at_ A (GAlt p q) m i ins rem o
| rs_alt_r A (p q : gram A) m i ins rem l X o :
    rsem E s at_ A p m i ins None (RFail false l X) ->
    rsem E s at_ A q m i ins None o -> settled o ->
    rsem E s at_ A (GAlt p q) m i ins rem (r_else i X o)
| rs_alt_fail A (p q : gram A) m i ins l X l' Y :
    rsem E s at_ A p m i ins None (RFail false l X) ->
    rsem E s at_ A q m i ins None (RFail false l' Y) ->
    rsem E s at_ A (GAlt p q) m i ins None (RFail false l (X ++ Y))
| rs_alt_recover A (p q : gram A) m i ins left l X l' Y o1 o2 :
    rsem E s at_ A p m i ins None (RFail false l X) ->
    rsem E s at_ A q m i ins None (RFail false l' Y) ->
    rsem E s at_ A p m i ins (Some left) o1 ->
    rsem E s at_ A q m i ins (Some left) o2 ->
    rsem E s at_ A (GAlt p q) m i ins (Some left) (r_choice l (X ++ Y) o1 o2)
| rs_alt_recover_exn A (p q : gram A) m i ins left l X l' Y e :
    rsem E s at_ A p m i ins None (RFail false l X) ->
    rsem E s at_ A q m i ins None (RFail false l' Y) ->
    rsem E s at_ A p m i ins (Some left) (RExn e) ->
    rsem E s at_ A (GAlt p q) m i ins (Some left) (RExn e)
(* sequencing: after consumed input recovery is allowed, with a new allowance *)
| rs_bind A B (p : gram A) (f : A -> gram B) m i ins rem v j X o :
    rsem E s at_ A p m i ins rem (RSucc v j X) ->
    rsem E s at_ B (f v) m j ins (if Nat.ltb i j then Some ins else rem) o ->
    rsem E s at_ B (GBind p f) m i ins rem (r_after i j X o)
| rs_bind_fail A B (p : gram A) (f : A -> gram B) m i ins rem b l X :
    rsem E s at_ A p m i ins rem (RFail b l X) ->
    rsem E s at_ B (GBind p f) m i ins rem (RFail b l X)
| rs_bind_offer A B (p : gram A) (f : A -> gram B) m i ins rem n b l X rs rs' :
    rsem E s at_ A p m i ins rem (ROffer n b l X rs) ->
    rconts E s at_ A B B f (fun _ w => w) m ins rs (inl rs') ->
    rsem E s at_ B (GBind p f) m i ins rem (ROffer n b l X rs')
| rs_bind_offer_exn A B (p : gram A) (f : A -> gram B) m i ins rem n b l X rs e :
    rsem E s at_ A p m i ins rem (ROffer n b l X rs) ->
    rconts E s at_ A B B f (fun _ w => w) m ins rs (inr e) ->
    rsem E s at_ B (GBind p f) m i ins rem (RExn e)
| rs_bind_exn A B (p : gram A) (f : A -> gram B) m i ins rem e :
    rsem E s at_ A p m i ins rem (RExn e) ->
    rsem E s at_ B (GBind p f) m i ins rem (RExn e)
| rs_seq A B C (p : gram A) (q : gram B) (merge : A -> B -> C) m i ins rem v j X o :
    rsem E s at_ A p m i ins rem (RSucc v j X) ->
    rsem E s at_ B q m j ins (if Nat.ltb i j then Some ins else rem) o ->
    rsem E s at_ C (GSeq p q merge) m i ins rem (on_rvalue (merge v) (r_after i j X o))
| rs_seq_fail A B C (p : gram A) (q : gram B) (merge : A -> B -> C) m i ins rem b l X :
    rsem E s at_ A p m i ins rem (RFail b l X) ->
    rsem E s at_ C (GSeq p q merge) m i ins rem (RFail b l X)
| rs_seq_offer A B C (p : gram A) (q : gram B) (merge : A -> B -> C) m i ins rem n b l X rs rs' :
    rsem E s at_ A p m i ins rem (ROffer n b l X rs) ->
    rconts E s at_ A B C (fun _ => q) merge m ins rs (inl rs') ->
    rsem E s at_ C (GSeq p q merge) m i ins rem (ROffer n b l X rs')
| rs_seq_offer_exn A B C (p : gram A) (q : gram B) (merge : A -> B -> C) m i ins rem n b l X rs e :
    rsem E s at_ A p m i ins rem (ROffer n b l X rs) ->
    rconts E s at_ A B C (fun _ => q) merge m ins rs (inr e) ->
    rsem E s at_ C (GSeq p q merge) m i ins rem (RExn e)
| rs_seq_exn A B C (p : gram A) (q : gram B) (merge : A -> B -> C) m i ins rem e :
    rsem E s at_ A p m i ins rem (RExn e) ->
    rsem E s at_ C (GSeq p q merge) m i ins rem (RExn e)
(* optional part: absent unless it starts *)
| rs_maybe A (p : gram A) m i ins rem o :
    rsem E s at_ A p m i ins None o -> settled o ->
    rsem E s at_ _ (GMaybe p) m i ins rem (on_rvalue Some o)
| rs_maybe_none A (p : gram A) m i ins rem l X :
    rsem E s at_ A p m i ins None (RFail false l X) ->
    rsem E s at_ _ (GMaybe p) m i ins rem (RSucc None i X)
(* repetition: ends at the first item that does not start; an item that is
   repaired is followed by the repetition again *)
| rs_many_more A (p : gram A) m i ins rem v j X o :
    i < j -> rsem E s at_ A p m i ins None (RSucc v j X) ->
    rsem E s at_ _ (GMany p) m j ins None o ->
    rsem E s at_ _ (GMany p) m i ins rem (on_rvalue (cons v) o)
| rs_many_empty A (p : gram A) m i ins rem v X :
    rsem E s at_ A p m i ins None (RSucc v i X) ->
    rsem E s at_ _ (GMany p) m i ins rem (RExn ManyEmpty)
| rs_many_stop A (p : gram A) m i ins rem l X :
    rsem E s at_ A p m i ins None (RFail false l X) ->
    rsem E s at_ _ (GMany p) m i ins rem (RSucc [] i X)
| rs_many_fail A (p : gram A) m i ins rem l X :
    rsem E s at_ A p m i ins None (RFail true l X) ->
    rsem E s at_ _ (GMany p) m i ins rem (RFail true l X)
| rs_many_offer A (p : gram A) m i ins rem n b l X rs rs' :
    rsem E s at_ A p m i ins None (ROffer n b l X rs) ->
    rconts E s at_ A (list A) (list A) (fun _ => GMany p) cons m ins rs (inl rs') ->
    rsem E s at_ _ (GMany p) m i ins rem (ROffer n b l X rs')
| rs_many_offer_exn A (p : gram A) m i ins rem n b l X rs e :
    rsem E s at_ A p m i ins None (ROffer n b l X rs) ->
    rconts E s at_ A (list A) (list A) (fun _ => GMany p) cons m ins rs (inr e) ->
    rsem E s at_ _ (GMany p) m i ins rem (RExn e)
| rs_many_exn A (p : gram A) m i ins rem e :
    rsem E s at_ A p m i ins None (RExn e) ->
    rsem E s at_ _ (GMany p) m i ins rem (RExn e)
(* attempt: no repairs as long as recovery may not start *)
| rs_attempt A (p : gram A) m i ins left o :
    rsem E s at_ A p m i ins (Some left) o ->
    rsem E s at_ A (GAttempt p) m i ins (Some left) o
| rs_attempt_plain A (p : gram A) m i ins o :
    diag E s at_ A (GAttempt p) m i o ->
    rsem E s at_ A (GAttempt p) m i ins None (plain o)
(* annotations *)
| rs_label A (p : gram A) x m i ins rem o :
    rsem E s at_ A p m i ins rem o ->
    rsem E s at_ A (GLabel p x) m i ins rem (r_label i x o)
| rs_recover A (p : gram A) m i ins rem o :
    rsem E s at_ A p m i ins rem o ->
    rsem E s at_ A (GRecover p) m i ins rem (r_ranked o)
(* recover_with: one more insertion, first in the list, unless the parser
   succeeded, committed, or no insertion is left *)
| rs_with_none A (p : gram A) x lb m i ins o :
    rsem E s at_ A p m i ins None o ->
    rsem E s at_ A (GRecoverWith p x lb) m i ins None o
| rs_with_off A (p : gram A) x lb m i ins left o :
    rsem E s at_ A p m i ins (Some left) o -> settled o \/ left = 0%Z ->
    rsem E s at_ A (GRecoverWith p x lb) m i ins (Some left) o
| rs_with_fail A (p : gram A) x lb m i ins left l X :
    rsem E s at_ A p m i ins (Some left) (RFail false l X) -> left <> 0%Z ->
    rsem E s at_ A (GRecoverWith p x lb) m i ins (Some left)
      (ROffer None false (at_ i) [] [f_insert (Some 0) left x i (at_ i) lb X])
| rs_with_offer A (p : gram A) x lb m i ins left n l X rs :
    rsem E s at_ A p m i ins (Some left) (ROffer n false l X rs) -> left <> 0%Z ->
    rsem E s at_ A (GRecoverWith p x lb) m i ins (Some left)
      (ROffer n false (at_ i) X (f_insert (Some 0) left x i (at_ i) lb X :: rs))
(* recover_with_fn: the value is computed from the stream and the position *)
| rs_withfn_none A (p : gram A) fn lab m i ins o :
    rsem E s at_ A p m i ins None o ->
    rsem E s at_ A (GRecoverWithFn p fn lab) m i ins None o
| rs_withfn_off A (p : gram A) fn lab m i ins left o :
    rsem E s at_ A p m i ins (Some left) o -> settled o \/ left = 0%Z ->
    rsem E s at_ A (GRecoverWithFn p fn lab) m i ins (Some left) o
| rs_withfn_fail A (p : gram A) fn lab m i ins left l X x :
    rsem E s at_ A p m i ins (Some left) (RFail false l X) -> left <> 0%Z ->
    fn s i = Ret x ->
    rsem E s at_ A (GRecoverWithFn p fn lab) m i ins (Some left)
      (ROffer None false (at_ i) [] [f_insert (Some 0) left x i (at_ i) (lab x) X])
| rs_withfn_offer A (p : gram A) fn lab m i ins left n l X rs x :
    rsem E s at_ A p m i ins (Some left) (ROffer n false l X rs) -> left <> 0%Z ->
    fn s i = Ret x ->
    rsem E s at_ A (GRecoverWithFn p fn lab) m i ins (Some left)
      (ROffer n false (at_ i) X (f_insert (Some 0) left x i (at_ i) (lab x) X :: rs))
| rs_withfn_raise A (p : gram A) fn lab m i ins left o e :
    rsem E s at_ A p m i ins (Some left) o -> ~ settled o -> left <> 0%Z ->
    fn s i = Raise e ->
    rsem E s at_ A (GRecoverWithFn p fn lab) m i ins (Some left) (RExn e)
(* layout: a wrong column is not repaired *)
| rs_block A (p : gram A) m i ins rem o :
    rsem E s at_ A p (loc_col (at_ i)) i ins rem o ->
    rsem E s at_ A (GBlock p) m i ins rem o
| rs_aligned A (p : gram A) m i ins rem o :
    loc_col (at_ i) = m -> rsem E s at_ A p m i ins rem o ->
    rsem E s at_ A (GAligned p) m i ins rem o
| rs_aligned_no A (p : gram A) m i ins rem :
    loc_col (at_ i) <> m ->
    rsem E s at_ A (GAligned p) m i ins rem (RFail false (at_ i) ["indentation"%string])
| rs_indented A delta (p : gram A) m i ins rem o :
    loc_col (at_ i) = (m + delta)%Z -> rsem E s at_ A p (loc_col (at_ i)) i ins rem o ->
    rsem E s at_ A (GIndented delta p) m i ins rem o
| rs_indented_no A delta (p : gram A) m i ins rem :
    loc_col (at_ i) <> (m + delta)%Z ->
    rsem E s at_ A (GIndented delta p) m i ins rem (RFail false (at_ i) ["indentation"%string])
(* forward references *)
| rs_delay d m i ins rem o :
    rsem E s at_ (V d) (E d) m i ins rem o -> rsem E s at_ (V d) (GDelay d) m i ins rem o
| rs_undef A m i ins rem : rsem E s at_ A GUndef m i ins rem (RExn DelayUndefined)

(** the repairs [rs], each continued with the parser chosen by its value *)
with rconts (E : env T V) (s : list T) (at_ : nat -> loc)
  : forall A B C, (A -> gram B) -> (A -> B -> C) -> Z -> Z -> list (offer A) ->
    list (offer C) + exn -> Prop :=
| rc_nil A B C (k : A -> gram B) (merge : A -> B -> C) m ins :
    rconts E s at_ A B C k merge m ins [] (inl [])
| rc_succ A B C (k : A -> gram B) (merge : A -> B -> C) m ins r rs w j Y rs' :
    rsem E s at_ B (k (f_val r)) m (f_pos r) ins (Some (f_left r)) (RSucc w j Y) ->
    rconts E s at_ A B C k merge m ins rs (inl rs') ->
    rconts E s at_ A B C k merge m ins (r :: rs) (inl (f_then_succ ins merge r w j Y :: rs'))
| rc_offer A B C (k : A -> gram B) (merge : A -> B -> C) m ins r rs n b l Y rs1 rs' :
    rsem E s at_ B (k (f_val r)) m (f_pos r) ins (Some (f_left r)) (ROffer n b l Y rs1) ->
    rconts E s at_ A B C k merge m ins rs (inl rs') ->
    rconts E s at_ A B C k merge m ins (r :: rs) (inl (map (f_then_repair merge r) rs1 ++ rs'))
| rc_fail A B C (k : A -> gram B) (merge : A -> B -> C) m ins r rs b l Y rs' :
    rsem E s at_ B (k (f_val r)) m (f_pos r) ins (Some (f_left r)) (RFail b l Y) ->
    rconts E s at_ A B C k merge m ins rs (inl rs') ->
    rconts E s at_ A B C k merge m ins (r :: rs) (inl rs')
| rc_exn A B C (k : A -> gram B) (merge : A -> B -> C) m ins r rs e :
    rsem E s at_ B (k (f_val r)) m (f_pos r) ins (Some (f_left r)) (RExn e) ->
    rconts E s at_ A B C k merge m ins (r :: rs) (inr e)
| rc_exn_later A B C (k : A -> gram B) (merge : A -> B -> C) m ins r rs o e :
    rsem E s at_ B (k (f_val r)) m (f_pos r) ins (Some (f_left r)) o ->
    (forall e', o <> RExn e') ->
    rconts E s at_ A B C k merge m ins rs (inr e) ->
    rconts E s at_ A B C k merge m ins (r :: rs) (inr e).

End Rec.

(** ** What [unwrap] shows *)
(** the order of preference: lower cost, then farther end, then a repair that
    does not start with an automatic insertion *)
Definition f_better {A} (a b : offer A) : Prop :=
  f_cost a < f_cost b \/
  (f_cost a = f_cost b /\
   (f_pos b < f_pos a \/
    (f_pos a = f_pos b /\ f_rank a <> None /\ f_rank b = None))).
(** [r] is the first of the best repairs of [rs] *)
Definition f_chosen {A} (rs : list (offer A)) (r : offer A) : Prop :=
  exists rs1 rs2, rs = rs1 ++ r :: rs2 /\
    (forall x, In x rs1 -> f_better r x) /\ (forall x, In x rs2 -> ~ f_better x r).
Definition a_report (fmt : loc -> string) (o : opitem) : erroritem :=
  {| ei_loc := op_loc o; ei_loc_str := fmt (op_loc o); ei_expected := op_exp o;
     ei_op := Some (op_op o) |}.
Definition a_failure (fmt : loc -> string) (l : loc) (X : list string) : erroritem :=
  {| ei_loc := l; ei_loc_str := fmt l; ei_expected := X; ei_op := None |}.
(** [unwrap(recover=rec)] of a parse with outcome [o] has the result [u] *)
Definition verdict {A} (fmt : loc -> string) (rec : bool) (o : rres A) (u : unwrapped A) : Prop :=
  match o with
  | RSucc v _ _ => u = Returns v
  | RFail _ l X => u = Raises [a_failure fmt l X]
  | ROffer _ _ l X rs =>
      (rs = [] /\ u = Raises [a_failure fmt l X]) \/
      (exists r, f_chosen rs r /\
         u = if rec then Returns (f_val r) else Raises (map (a_report fmt) (f_ops r)))
  | RExn _ => False
  end.
