(** When two parsers are interchangeable: specification used by the algebraic
    laws.  Fuel is quantified away: only finished runs are compared. *)
From Verif Require Export Spec.

(** the runs [x] and [y] (indexed by fuel) finish with the same results; if
    [exns], they also raise the same exceptions *)
Definition agree (exns : Prop) {A} (x y : nat -> out A) : Prop :=
  (forall r, (exists n, x n = Ret r) <-> (exists n, y n = Ret r)) /\
  (exns -> forall e, (exists n, x n = Raise e) <-> (exists n, y n = Raise e)).

Section LawSpec.
Context {T : Type} {V : nat -> Type}.
Notation gram := (gram T V).
Implicit Types E : env T V.

(** [g] and [h] behave alike on every stream, from every position and context,
    with and without recovery, for every insertion budget: same values, end
    positions, contexts, errors, expected values and repairs. *)
Definition same_upto (exns : Prop) E {A} (g h : gram A) : Prop :=
  forall s pos c, pos <= List.length s ->
  agree exns (fun n => fast E n g s pos c) (fun n => fast E n h s pos c) /\
  forall ins rem,
  agree exns (fun n => full E n g s pos c ins rem) (fun n => full E n h s pos c ins rem).

(** including exceptions *)
Definition same E {A} (g h : gram A) : Prop := same_upto True E g h.
(** whenever one of them returns, so does the other, with the same result (the
    order in which callbacks are called on different repairs may differ, hence
    which exception is raised if several calls raise) *)
Definition same_ok E {A} (g h : gram A) : Prop := same_upto False E g h.
(** without recovery only *)
Definition same_plain E {A} (g h : gram A) : Prop :=
  forall s pos c, pos <= List.length s ->
  agree True (fun n => fast E n g s pos c) (fun n => fast E n h s pos c).

(** ** Outcomes of a parser without recovery *)
(** [p] started at [i] in context [c] succeeds with value [v], ending at [j] in
    context [c']; [b]: input was consumed *)
Definition yields E {A} (p : gram A) (s : list T) (i : nat) (c : ctx T)
    (v : A) (j : nat) (c' : ctx T) (b : bool) : Prop :=
  exists n o, fast E n p s i c = Ret (SOk o) /\
    ok_val o = v /\ ok_pos o = j /\ ok_ctx o = c' /\ ok_con o = b.
Definition fails E {A} (p : gram A) (s : list T) (i : nat) (c : ctx T) (b : bool) : Prop :=
  exists n e, fast E n p s i c = Ret (SErr e) /\ er_con e = b.
Definition raises E {A} (p : gram A) (s : list T) (i : nat) (c : ctx T) (x : exn) : Prop :=
  exists n, fast E n p s i c = Raise x.

(** complete results: with [runs], the outcome of [fast_fn] of a parser object;
    with [recovers], the outcome of its [fn] with insertion budget [ins], [rem]
    insertions being left at the current position ([None]: recovery may start
    only after input was consumed) *)
Definition runs E {A} (p : gram A) (s : list T) (i : nat) (c : ctx T) (r : sres T A) : Prop :=
  exists n, fast E n p s i c = Ret r.
Definition recovers E {A} (p : gram A) (s : list T) (i : nat) (c : ctx T)
    (ins : Z) (rem : option Z) (r : res T A) : Prop :=
  exists n, full E n p s i c ins rem = Ret r.
Definition raises_rec E {A} (p : gram A) (s : list T) (i : nat) (c : ctx T)
    (ins : Z) (rem : option Z) (x : exn) : Prop :=
  exists n, full E n p s i c ins rem = Raise x.

(** a run of consuming successes of [p] with values [vs] *)
Inductive star E {A} (p : gram A) (s : list T)
  : nat -> ctx T -> list A -> nat -> ctx T -> Prop :=
| star_nil i c : star E p s i c [] i c
| star_cons i c v j c' vs k c'' :
    yields E p s i c v j c' true -> star E p s j c' vs k c'' ->
    star E p s i c (v :: vs) k c''.

(** the outcome of [p | q] when [p] failed with [e] without consuming and [q]'s
    outcome is [rq]: [q]'s outcome; as long as [q] consumed nothing, the expected
    values of [p] come first and the error location is [p]'s *)
Definition after_failure {A} (e : errr) (rq : sres T A) : sres T A :=
  match rq with
  | SOk o =>
      SOk (Ok (ok_val o) (ok_pos o) (ok_ctx o)
             (if ok_con o then ok_exp o else er_exp e ++ ok_exp o) (ok_con o))
  | SErr f =>
      if er_con f then SErr f else SErr (Err (er_loc e) (er_exp e ++ er_exp f) false)
  end.

(** the repairs of a result *)
Definition offers {A} (r : res T A) : list (repair T A) :=
  match r with RRec rc => rc_reps rc | _ => [] end.
(** a repair, up to the lists of expected values *)
Definition core {A} (r : repair T A) :=
  (r_cost r, r_prio r, r_ins r, map (fun o => (op_op o, op_loc o, op_con o)) (r_ops r),
   r_val r, r_pos r, r_ctx r, r_con r).
(** does not start with an automatic insertion, or was marked by [recover] *)
Definition prioritised {A} (r : repair T A) : bool :=
  match r_prio r with Some _ => true | None => false end.

End LawSpec.
