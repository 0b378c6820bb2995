(** More insertions allowed: vocabulary for property C45. *)
From Verif Require Export Spec ApiSpec.

(** [max_insertions=k'] allows at least as much as [max_insertions=k];
    a negative number means no limit *)
Definition allows_more (k k' : Z) : Prop := (k' < 0)%Z \/ (0 <= k <= k')%Z.

(** no [recover_with]/[recover_with_fn] ([um = false]); no [attempt]
    ([am = false]) *)
Definition uses_node {T V} (um am : bool) A (g : gram T V A) : Prop :=
  match g with
  | GRecoverWith _ _ _ | GRecoverWithFn _ _ _ => um = true
  | GAttempt _ => am = true
  | _ => True
  end.
Definition uses {T V A} (um am : bool) (g : gram T V A) : Prop := gall (uses_node um am) g.
(** the parser (with its Delays) does not use both *)
Definition not_both {T V} (E : env T V) {A} (g : gram T V A) : Prop :=
  exists um am, um && am = false /\ uses um am g /\ forall d, uses um am (E d).

(** the same repair, except for the insertions that are still allowed *)
Definition same_repair {T A} (r r' : repair T A) : Prop :=
  r_cost r = r_cost r' /\ r_prio r = r_prio r' /\ r_ops r = r_ops r' /\ r_val r = r_val r' /\
  r_pos r = r_pos r'.

(** the cost of the reported errors: skipped tokens and insertions *)
Fixpoint errors_cost (errs : list erroritem) : nat :=
  match errs with
  | [] => 0
  | e :: errs =>
      match ei_op e with Some (Skip k) => k | Some (Insert _) => 1 | None => 0 end
      + errors_cost errs
  end.
