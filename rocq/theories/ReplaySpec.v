(** Mending the errors one at a time (C84): specification.
    Only the parser API, texts and edit scripts are mentioned. *)
From Verif Require Export LLSpec FirstSpec MissSpec DiagSpec Api.

Section ReplaySpec.
Context {T : Type} {V : nat -> Type}.
Notation gram := (gram T V).
Variable E : env T V.

(** a regular expression looks only at the text from its position on ... *)
Definition forward_re {A} (re : list T -> nat -> option (nat * option A)) : Prop :=
  forall s s' i i', i <= List.length s -> i' <= List.length s' -> skipn i' s' = skipn i s ->
  re s' i' = match re s i with Some (e, v) => Some (i' + (e - i), v) | None => None end.
(** ... and matches nothing at all either nowhere or never fails *)
Definition sure_re {A} (re : list T -> nat -> option (nat * option A)) : Prop :=
  (forall s i v, re s i <> Some (i, Some v)) \/
  (forall s i, i <= List.length s -> exists e v, re s i = Some (e, Some v)).
Definition forward_node B (q : gram B) : Prop :=
  match q with GRegexp re => forward_re re /\ sure_re re | _ => True end.

(** [p] ends with a token that must be there - not with an optional part or a repetition -
    so that after [p] nothing of [p] can follow.  [Sh d]: so does the parser [d] of a
    [Delay]. *)
Fixpoint shut (Sh : nat -> Prop) {A} (p : gram A) : Prop :=
  match p with
  | GSatisfy _ | GSym _ _ _ | GLiteral _ _ _ | GRegexp _ | GPure _ | GPureFn _ => True
  | GFmap p _ | GLabel p _ | GRecover p | GMaybe p => shut Sh p
  | GRecoverWith p _ _ | GRecoverWithFn p _ _ => shut Sh p
  | GAlt p q => shut Sh p /\ shut Sh q
  | GSeq p q _ => shut Sh q /\ ~ nullable E q
  | GDelay d => Sh d
  | _ => False
  end.
(** no [bind]: the grammar is fixed; no regular expressions *)
Definition no_bind_node B (q : gram B) : Prop := match q with GBind _ _ => False | _ => True end.
Definition no_regexp_node B (q : gram B) : Prop := match q with GRegexp _ => False | _ => True end.
(** the items of every repetition end so *)
Definition shut_items (Sh : nat -> Prop) B (q : gram B) : Prop :=
  match q with GMany p => shut Sh p | _ => True end.

(** Whatever follows the text [u], [p] reads [u] and nothing else, with the value [x], and
    can take nothing more. *)
Definition steady {A} (p : gram A) (u : list T) (x : A) : Prop :=
  u <> [] /\ sentence E p u x /\
  forall s at_ m i rest, i <= List.length s -> skipn i s = u ++ rest ->
  diag E s at_ A p m i (DSucc x (i + List.length u) []).
(** What [recover_with] puts in is the value of a text that can be written there:
    [fill l], for the placeholder reported as [l]. *)
Definition placeholder_node (fill : string -> list T) B (q : gram B) : Prop :=
  match q with
  | GRecoverWith p x l => steady p (fill l) x
  | GRecoverWithFn p fn lab => forall s i x, fn s i = Ret x -> steady p (fill (lab x)) x
  | _ => True
  end.
Context {A : Type}.
Variable g : gram A.
(** How the text of an insertion [x], reported as [l] and made by a part of [g], is
    written: inserted tokens as they are ... *)
Definition tokens (l : string) (x : list (T + string)) (u : list T) : Prop :=
  inserts E g l x /\ x = map inl u.
(** ... and for a placeholder its filling *)
Definition filling (fill : string -> list T) (l : string) (x : list (T + string)) (u : list T) : Prop :=
  inserts E g l x /\ u = flat_map (fun y => match y with inl t => [t] | inr l' => fill l' end) x.

(** [g << eof] does not accept [text]: without recovery there is one error, at position
    [p], and [Q] holds of the values it expects *)
Definition complains (text : list T) (p : nat) (Q : list string -> Prop) : Prop :=
  forall b mi get fmt locof, cohere get text locof ->
  exists n r e, parse E n (seql g GEof) text false mi get fmt = Ret r /\
    unwrap r b = Raises [e] /\ ei_op e = None /\ ei_loc e = locof p /\ Q (ei_expected e).
(** [g << eof] accepts [text], with the value [v] *)
Definition content (text : list T) (v : A) : Prop :=
  forall mi get fmt locof, cohere get text locof ->
  exists n r, parse E n (seql g GEof) text false mi get fmt = Ret r /\ unwrap r false = Returns v.

(** The errors [errs] are those one gets one after the other by performing the operations
    of the script [es] on the text [s] one at a time.  [i]: position in [s] reached;
    [w]: what was written so far, so that [w ++ skipn i s] is the text as mended so far.
    [same X Y]: the error of that text, expecting [X], and the reported one, expecting
    [Y], say the same.  [put l x u]: the insertion of [x], reported as [l],
    is performed by writing [u]. *)
Fixpoint one_by_one (put : string -> list (T + string) -> list T -> Prop) (same : list string -> list string -> Prop) (s : list T)
    (locof : nat -> loc) (v : A) (i : nat) (w : list T) (es : list (edit T))
    (errs : list erroritem) : Prop :=
  match es with
  | [] => errs = [] /\ i = List.length s /\ content w v
  | EKeep t :: es => nth_error s i = Some t /\ one_by_one put same s locof v (i + 1) (w ++ [t]) es errs
  | ESkip ts :: es => exists e errs', errs = e :: errs' /\
      ei_op e = Some (Skip (List.length ts)) /\ ei_loc e = locof i /\
      complains (w ++ skipn i s) (List.length w) (fun X => same X (ei_expected e)) /\
      ts = firstn (List.length ts) (skipn i s) /\
      one_by_one put same s locof v (i + List.length ts) w es errs'
  | EIns lb x :: es => exists u e errs', put lb x u /\ errs = e :: errs' /\
      ei_op e = Some (Insert lb) /\ ei_loc e = locof i /\
      complains (w ++ skipn i s) (List.length w) (fun X => same X (ei_expected e)) /\
      one_by_one put same s locof v i (w ++ u) es errs'
  end.

(** [P w e] for every error [e], with the text [w] written when it is met *)
Fixpoint each_error (put : string -> list (T + string) -> list T -> Prop) (P : list T -> erroritem -> Prop) (w : list T) (es : list (edit T))
    (errs : list erroritem) : Prop :=
  match es with
  | [] => errs = []
  | EKeep t :: es => each_error put P (w ++ [t]) es errs
  | ESkip _ :: es => exists e errs', errs = e :: errs' /\ P w e /\ each_error put P w es errs'
  | EIns lb x :: es => exists u e errs', put lb x u /\ errs = e :: errs' /\ P w e /\
      each_error put P (w ++ u) es errs'
  end.
End ReplaySpec.
