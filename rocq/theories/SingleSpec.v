(** Specifications for label, recover, recover_with and the primitives. *)
From Verif Require Export LawSpec.

Section SingleSpec.
Context {T : Type}.

(** [x] replaces the expected values that were not preceded by consumed input *)
Definition rename_to (x : string) (con : bool) (e : list string) : list string :=
  if con then e else [x].
Definition op_renamed (x : string) (o o' : opitem) : Prop :=
  op_op o' = op_op o /\ op_loc o' = op_loc o /\ op_con o' = op_con o /\
  op_exp o' = rename_to x (op_con o) (op_exp o).
Definition rep_renamed {A} (x : string) (r r' : repair T A) : Prop :=
  r_cost r' = r_cost r /\ r_prio r' = r_prio r /\ r_ins r' = r_ins r /\
  r_val r' = r_val r /\ r_pos r' = r_pos r /\ r_ctx r' = r_ctx r /\ r_con r' = r_con r /\
  r_exp r' = rename_to x (r_con r) (r_exp r) /\
  Forall2 (op_renamed x) (r_ops r) (r_ops r').
(** [r'] is [r] with renamed expectations, nothing else changed *)
Definition renamed {A} (x : string) (r r' : res T A) : Prop :=
  match r, r' with
  | ROk o, ROk o' =>
      ok_val o' = ok_val o /\ ok_pos o' = ok_pos o /\ ok_ctx o' = ok_ctx o /\
      ok_con o' = ok_con o /\ ok_exp o' = rename_to x (ok_con o) (ok_exp o)
  | RErr e, RErr e' =>
      er_loc e' = er_loc e /\ er_con e' = er_con e /\
      er_exp e' = rename_to x (er_con e) (er_exp e)
  | RRec c, RRec c' =>
      rc_loc c' = rc_loc c /\ rc_con c' = rc_con c /\ rc_min c' = rc_min c /\
      rc_exp c' = rename_to x (rc_con c) (rc_exp c) /\
      Forall2 (rep_renamed x) (rc_reps c) (rc_reps c')
  | _, _ => False
  end.

(** the repair [r'] is [r] with the priority of a user insertion if [r] had
    none *)
Definition marked_rep {A} (r r' : repair T A) : Prop :=
  r_cost r' = r_cost r /\ r_ins r' = r_ins r /\ r_ops r' = r_ops r /\
  r_val r' = r_val r /\ r_pos r' = r_pos r /\ r_ctx r' = r_ctx r /\
  r_exp r' = r_exp r /\ r_con r' = r_con r /\
  r_prio r' = match r_prio r with None => Some 0 | Some z => Some z end.
Definition marked {A} (r r' : res T A) : Prop :=
  match r, r' with
  | RRec c, RRec c' =>
      rc_loc c' = rc_loc c /\ rc_con c' = rc_con c /\ rc_min c' = rc_min c /\
      rc_exp c' = rc_exp c /\ Forall2 marked_rep (rc_reps c) (rc_reps c')
  | ROk o, ROk o' => o' = o
  | RErr e, RErr e' => e' = e
  | _, _ => False
  end.

(** the insertion offered by [recover_with]: value [x] labelled [l] at position
    [i], location [lc], reporting the expected values [xs], leaving [m] - 1
    insertions *)
Definition user_insertion {A} (x : A) (l : string) (i : nat) (c : ctx T) (lc : loc)
    (xs : list string) (m : Z) : repair T A :=
  {| r_cost := 1; r_prio := Some 0; r_ins := (m - 1)%Z;
     r_ops := [{| op_op := Insert l; op_loc := lc; op_exp := xs; op_con := false |}];
     r_val := x; r_pos := i; r_ctx := c; r_exp := []; r_con := true |}.
(** the automatic insertion offered by [sym] and [literal] *)
Definition auto_insertion {A} (x : A) (l : string) (i : nat) (c : ctx T) (lc : loc)
    (m : Z) : repair T A :=
  {| r_cost := 1; r_prio := None; r_ins := (m - 1)%Z;
     r_ops := [{| op_op := Insert l; op_loc := lc; op_exp := [l]; op_con := false |}];
     r_val := x; r_pos := i; r_ctx := c; r_exp := []; r_con := true |}.
(** skipping [n] tokens, then reading [x] up to position [j] *)
Definition skipping {A} (x : A) (n : nat) (j : nat) (c : ctx T) (lc : loc)
    (xs : list string) (ins : Z) (b : bool) : repair T A :=
  {| r_cost := n; r_prio := Some 0; r_ins := ins;
     r_ops := [{| op_op := Skip n; op_loc := lc; op_exp := xs; op_con := false |}];
     r_val := x; r_pos := j; r_ctx := c; r_exp := []; r_con := b |}.

(** [k] is the nearest position after [i] (and before the end of the stream)
    where [hit] holds with result [x]; [miss] everywhere in between *)
Definition nearest {X} (s : list T) (hit : nat -> X -> Prop) (miss : nat -> Prop)
    (i k : nat) (x : X) : Prop :=
  i < k < List.length s /\ hit k x /\ forall j, i < j < k -> miss j.
(** there is none *)
Definition no_later (s : list T) (miss : nat -> Prop) (i : nat) : Prop :=
  forall j, i < j < List.length s -> miss j.
(** the skips offered at [i]: one to the nearest match, if there is one *)
Definition skips {X A} (s : list T) (hit : nat -> X -> Prop) (miss : nat -> Prop)
    (i : nat) (mk : nat -> X -> repair T A) (l : list (repair T A)) : Prop :=
  (exists k x, nearest s hit miss i k x /\ l = [mk k x]) \/
  (no_later s miss i /\ l = []).

(** the token at position [k] is [t] and passes [test] *)
Definition tok_hit (s : list T) (test : T -> out bool) (k : nat) (t : T) : Prop :=
  nth_error s k = Some t /\ test t = Ret true.
Definition tok_miss (s : list T) (test : T -> out bool) (k : nat) : Prop :=
  forall t, nth_error s k = Some t -> test t = Ret false.
Definition sym_hit (s : list T) (teq : T -> T -> bool) (x : T) (k : nat) (t : T) : Prop :=
  nth_error s k = Some t /\ teq t x = true.
Definition sym_miss (s : list T) (teq : T -> T -> bool) (x : T) (k : nat) : Prop :=
  forall t, nth_error s k = Some t -> teq t x = false.
(** the literal [x] lit_at in [s] at [k] *)
Definition lit_at (s : list T) (teq : T -> T -> bool) (x : list T) (k : nat) : Prop :=
  forall d a, nth_error x d = Some a -> exists b, nth_error s (k + d) = Some b /\ teq b a = true.
(** the regular expression matches at [k], ending at [e], with group value [v] *)
Definition re_hit {A} (s : list T) (m : list T -> nat -> option (nat * option A))
    (k : nat) (ev : nat * A) : Prop := m s k = Some (fst ev, Some (snd ev)).
Definition re_miss {A} (s : list T) (m : list T -> nat -> option (nat * option A))
    (k : nat) : Prop := forall e v, m s k <> Some (e, Some v).

Definition result_exp {A} (r : res T A) : list string :=
  match r with ROk o => ok_exp o | RErr e => er_exp e | RRec c => rc_exp c end.
Definition result_con {A} (r : res T A) : bool :=
  match r with ROk o => ok_con o | RErr e => er_con e | RRec c => rc_con c end.
Definition result_loc {A} (r : res T A) : option loc :=
  match r with ROk o => None | RErr e => Some (er_loc e) | RRec c => Some (rc_loc c) end.
Definition succeeded {A} (r : res T A) : Prop :=
  match r with ROk _ => True | _ => False end.
End SingleSpec.
