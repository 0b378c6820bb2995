(** Specification of the layout combinators. *)
From Verif Require Export LawSpec LocSpec.

Section LayoutSpec.
Context {T : Type}.

(** the result [r] with the context [c] in place of its own *)
Definition ok_in (c : ctx T) {A} (o o' : okr T A) : Prop :=
  ok_val o' = ok_val o /\ ok_pos o' = ok_pos o /\ ok_exp o' = ok_exp o /\
  ok_con o' = ok_con o /\ ok_ctx o' = c.
Definition rep_in (c : ctx T) {A} (r r' : repair T A) : Prop :=
  r_cost r' = r_cost r /\ r_prio r' = r_prio r /\ r_ins r' = r_ins r /\
  r_ops r' = r_ops r /\ r_val r' = r_val r /\ r_pos r' = r_pos r /\
  r_exp r' = r_exp r /\ r_con r' = r_con r /\ r_ctx r' = c.
Definition res_in (c : ctx T) {A} (r r' : res T A) : Prop :=
  match r, r' with
  | ROk o, ROk o' => ok_in c o o'
  | RErr e, RErr e' => e' = e
  | RRec k, RRec k' =>
      rc_loc k' = rc_loc k /\ rc_con k' = rc_con k /\ rc_min k' = rc_min k /\
      rc_exp k' = rc_exp k /\ Forall2 (rep_in c) (rc_reps k) (rc_reps k')
  | _, _ => False
  end.

(** the error of a layout test that failed at location [l] *)
Definition bad_indentation (l : loc) : errr :=
  {| er_loc := l; er_exp := ["indentation"%string]; er_con := false |}.

(** [g] is [p] run in the context [c0], with the context [c1] afterwards (with
    [c1 = None]: the context [p] left) *)
Definition runs_in {V A} (E : env T V) (g p : gram T V A) (s : list T) (i : nat)
    (c c0 : ctx T) (c1 : option (ctx T)) : Prop :=
  let after r0 r :=
    match c1 with Some c1 => res_in c1 r0 r | None => r = r0 end in
  (forall r, runs E g s i c r <->
     exists r0, runs E p s i c0 r0 /\ after (sres_res r0) (sres_res r)) /\
  (forall x, raises E g s i c x <-> raises E p s i c0 x) /\
  forall ins rem,
  (forall r, recovers E g s i c ins rem r <->
     exists r0, recovers E p s i c0 ins rem r0 /\ after r0 r) /\
  (forall x, raises_rec E g s i c ins rem x <-> raises_rec E p s i c0 ins rem x).

(** [g] fails with [e] in both modes: no value, no repair, no exception *)
Definition only_fails {V A} (E : env T V) (g : gram T V A) (s : list T) (i : nat)
    (c : ctx T) (e : errr) : Prop :=
  (forall r, runs E g s i c r <-> r = SErr e) /\
  (forall x, ~ raises E g s i c x) /\
  forall ins rem,
  (forall r, recovers E g s i c ins rem r <-> r = RErr e) /\
  (forall x, ~ raises_rec E g s i c ins rem x).
End LayoutSpec.

(** a context of scannerless.parse at position [i]: the location it caches is
    the true location of a position read before *)
Definition text_ctx (s : list char) (i : nat) (c : ctx char) : Prop :=
  ctx_get c = scannerless_get_loc /\ exists p, p <= i /\ ctx_loc c = true_loc s p.
(** the context with mark [m] that caches the location of [i] *)
Definition text_here (s : list char) (i : nat) (m : Z) : ctx char :=
  {| ctx_mark := m; ctx_loc := true_loc s i; ctx_get := scannerless_get_loc |}.

(** a context of lexer.parse at token [i]: it caches the location of a token
    read before, or the initial location *)
Definition tok_ctx (s : list token) (i : nat) (c : ctx token) : Prop :=
  ctx_get c = lexer_get_loc /\
  (ctx_loc c = Loc 0 0 0 \/ exists p, p <= i /\ ctx_loc c = loc_from_stream s p).
(** the location the layout combinators use for token [i]: that of the token,
    unless the character offset of the cached location happens to be equal to
    the token's index [i] *)
Definition tok_seen (s : list token) (i : nat) (c : ctx token) : loc :=
  if Z.eqb (Z.of_nat i) (loc_pos (ctx_loc c)) then ctx_loc c else loc_from_stream s i.
Definition tok_here (s : list token) (i : nat) (c : ctx token) (m : Z) : ctx token :=
  {| ctx_mark := m; ctx_loc := tok_seen s i c; ctx_get := lexer_get_loc |}.
(** no earlier token, and no start of the source before token 0, lies at the
    character offset [i] *)
Definition offset_free (s : list token) (i : nat) : Prop :=
  (i = 0 -> loc_from_stream s 0 = Loc 0 0 0) /\
  forall p, p < i -> loc_pos (loc_from_stream s p) <> Z.of_nat i.
