(** What the errors after the first one say (C83): specification.
    Only the grammar, its language with placeholders ([lang], [edit] of [Spec.v]) and
    the reported errors are mentioned. *)
From Verif Require Export ExpSpec Api.

Section LaterSpec.
Context {T : Type} {V : nat -> Type}.
Notation gram := (gram T V).
Notation word := (list (T + string)).
Variable E : env T V.

(** once a word of the first part was read or repaired, the rest can be completed;
    [completable_node] of [LLSpec.v] with placeholders *)
Definition mendable_node B (q : gram B) : Prop :=
  match q with
  | GFmap p f => forall w v, lang E _ p w v -> returns (f v)
  | GSeq _ p _ => exists w v, lang E _ p w v
  | GBind p f => forall w v, lang E _ p w v -> exists w' v', lang E _ (f v) w' v'
  | _ => True
  end.

(** [g] contains a part called [l], and any word of that part can come after [w] *)
Definition may_come {A} (g : gram A) (w : word) (l : string) : Prop :=
  exists B (q : gram B), occurs E q A g /\ called B q l /\
    forall u v, lang E B q u v -> exists w' v', lang E A g (w ++ u ++ w') v'.

(** The errors [errs] are those of the edit script [es], one for each operation, in
    order: each one is located where the script is when it performs the operation, and
    each name it expects is one of a part that may come after the text written so far.
    [i]: position in the input; [w]: text written before. *)
Fixpoint accounts {A} (g : gram A) (locof : nat -> loc) (i : nat) (w : word)
    (es : list (edit T)) (errs : list erroritem) : Prop :=
  match es with
  | [] => errs = []
  | EKeep t :: es => accounts g locof (i + 1) (w ++ [inl t]) es errs
  | ESkip ts :: es => exists e errs', errs = e :: errs' /\
      ei_op e = Some (Skip (List.length ts)) /\ ei_loc e = locof i /\
      (forall l, In l (ei_expected e) -> may_come g w l) /\
      accounts g locof (i + List.length ts) w es errs'
  | EIns lb x :: es => exists e errs', errs = e :: errs' /\
      ei_op e = Some (Insert lb) /\ ei_loc e = locof i /\
      (forall l, In l (ei_expected e) -> may_come g w l) /\
      accounts g locof i (w ++ x) es errs'
  end.
End LaterSpec.
