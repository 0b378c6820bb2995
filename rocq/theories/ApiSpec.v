(** Specification notions about parse results as the user sees them. *)
From Verif Require Export Spec LocSpec.

Section ApiSpec.
Context {T : Type}.

(** one per inserted symbol and per skipped token, counted on the reported
    operations *)
Definition reported_cost {A} (r : repair T A) : nat :=
  ops_cost (map op_op (r_ops r)).

(** The documented order on repairs (types.py:125-133): lower cost first, then
    the farther end position, then a repair that does not start with an
    automatic insertion (priority None, core/repair.py:64-70). *)
Definition preferred {A} (a b : repair T A) : Prop :=
  reported_cost a < reported_cost b \/
  (reported_cost a = reported_cost b /\
   (r_pos b < r_pos a \/
    (r_pos a = r_pos b /\ r_prio a <> None /\ r_prio b = None))).

(** [x] is the first of the best elements of [l] *)
Definition first_best {A} (l : list (repair T A)) (x : repair T A) : Prop :=
  exists l1 l2, l = l1 ++ x :: l2 /\
    (forall y, In y l1 -> preferred x y) /\ (forall y, In y l2 -> ~ preferred y x).

(** What an error item reports: the location and the operation. *)
Definition reports (locof : nat -> loc) (fmt : loc -> string)
    (e : erroritem) (o : rop * nat) : Prop :=
  ei_op e = Some (fst o) /\ ei_loc e = locof (snd o) /\
  ei_loc_str e = fmt (locof (snd o)).

(** Layout combinators are only used with location functions whose [pos] field
    is the stream position (default and scannerless, but not the lexer's). *)
Definition lay_ok {V} (E : env T V) {A} (g : gram T V A) (s : list T)
    (locof : nat -> loc) : Prop :=
  exactpos s locof \/ (no_layout g /\ forall d, no_layout (E d)).

End ApiSpec.
