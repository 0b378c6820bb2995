(** Model of src/reparsec/core/recovery.py *)
From Verif Require Export Result.

Section Recovery.
Context {T : Type}.

(** core/recovery.py:71-75  _join_ops: copies the operations of the first
    repair, prepends the first repair's expected values to the operations of
    the second one (in place in Python) and concatenates. *)
Definition join_ops {A B} (rep : repair T A) (repb : repair T B) : list opitem :=
  map (fun i => OpItem (op_op i) (op_loc i) (op_exp i) (op_con i)) (r_ops rep)
  ++ ops_prepend_expected (r_ops repb) (r_exp rep) (r_con rep).

(** core/recovery.py:78-83  _append_expected *)
Definition append_expected {A} (ra : repair T A) (expected : list string)
    (consumed : bool) : list string :=
  if consumed then expected else Append (r_exp ra) expected.

(** core/recovery.py:26-33  the repair built when the continuation succeeds *)
Definition cont_ok {A B C} (ins : Z) (merge : A -> B -> C)
    (r : repair T A) (rb : okr T B) : repair T C :=
  Repair (r_cost r) (r_prio r)
    (if Nat.eqb (r_pos r) (ok_pos rb) then r_ins r else ins)
    (r_ops r) (merge (r_val r) (ok_val rb)) (ok_pos rb) (ok_ctx rb)
    (append_expected r (ok_exp rb) (ok_con rb))
    (r_con r || ok_con rb).

(** core/recovery.py:36-43  the repair built from a repair of the continuation *)
Definition cont_rec {A B C} (merge : A -> B -> C)
    (r : repair T A) (rr : repair T B) : repair T C :=
  Repair (r_cost r + r_cost rr) (r_prio r) (r_ins rr) (join_ops r rr)
    (merge (r_val r) (r_val rr)) (r_pos rr) (r_ctx rr)
    (append_expected r (r_exp rr) (r_con rr))
    (r_con r || r_con rr).

(** core/recovery.py:23-43  one iteration of the loop over [ra.repairs] *)
Definition cont_one {A B C} (ins : Z)
    (parse : A -> nat -> ctx T -> Z -> out (res T B)) (merge : A -> B -> C)
    (r : repair T A) : out (list (repair T C)) :=
  rb <- parse (r_val r) (r_pos r) (r_ctx r) (r_ins r) ;;
  match rb with
  | ROk o => Ret [cont_ok ins merge r o]
  | RRec rb => Ret (map (cont_rec merge r) (rc_reps rb))
  | RErr _ => Ret []
  end.

(** core/recovery.py:18-45  continue_parse *)
Definition continue_parse {A B C} (ra : recr T A) (ins : Z)
    (parse : A -> nat -> ctx T -> Z -> out (res T B)) (merge : A -> B -> C)
    : out (res T C) :=
  reps <- flat_mapM (cont_one ins parse merge) (rc_reps ra) ;;
  Ret (RRec (Recd reps (rc_min ra) (rc_loc ra) (rc_exp ra) (rc_con ra))).

(** core/recovery.py:48-68  join_repairs *)
Definition join_repairs {A} (ra rb : recr T A) : recr T A :=
  let '(reps, min_prio) :=
    match rc_min ra with
    | Some mp =>
        (rc_reps ra ++
           filter (fun r => match r_prio r with
                            | Some p => Nat.ltb p mp | None => false end)
             (rc_reps rb),
         match rc_min rb with
         | Some mb => if Nat.ltb mb mp then Some mb else Some mp
         | None => Some mp
         end)
    | None =>
        (rc_reps ra ++
           filter (fun r => match r_prio r with
                            | Some _ => true | None => false end)
             (rc_reps rb),
         rc_min rb)
    end in
  if rc_con ra then Recd reps min_prio (rc_loc ra) (rc_exp ra) true
  else if rc_con rb then Recd reps min_prio (rc_loc rb) (rc_exp rb) true
  else Recd reps min_prio (rc_loc ra) (Append (rc_exp ra) (rc_exp rb))
         (rc_con ra || rc_con rb).

End Recovery.
