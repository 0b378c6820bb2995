(** Related parsers: specification (C55, C56).  Two parsers, over possibly
    different tokens and Delay objects, are related if they are built by the same
    combinators, and their tests, callbacks and constants cannot tell related
    tokens and values apart. *)
From Verif Require Export ApiSpec Lexer.

(** outcomes of related callbacks: the same exception, or related values *)
Definition outrel {A B} (R : A -> B -> Prop) (x : out A) (y : out B) : Prop :=
  match x, y with
  | Ret a, Ret b => R a b
  | Raise e, Raise e' => e = e'
  | NoFuel, NoFuel => True
  | _, _ => False
  end.
Definition optrel {A B} (R : A -> B -> Prop) (x : option A) (y : option B) : Prop :=
  match x, y with
  | Some a, Some b => R a b
  | None, None => True
  | _, _ => False
  end.

Section ParamSpec.
Context {T1 T2 : Type} {V1 V2 : nat -> Type}.
(** [RT]: related tokens; [RV d]: related values of Delay number [d] *)
Variable RT : T1 -> T2 -> Prop.
Variable RV : forall d, V1 d -> V2 d -> Prop.
(** the two inputs, read from [k1] and from [k2] *)
Variable s1 : list T1.
Variable s2 : list T2.
Variables k1 k2 : nat.
(** layout combinators are allowed *)
Variable lay : Prop.

(** matches of regular expressions (end and group) at corresponding positions *)
Definition matchrel {A B} (R : A -> B -> Prop) (i : nat)
    (x : option (nat * option A)) (y : option (nat * option B)) : Prop :=
  match x, y with
  | None, None => True
  | Some (e, v), Some (e', v') =>
      exists j, i <= j /\ k1 + j <= List.length s1 /\ e = k1 + j /\ e' = k2 + j /\ optrel R v v'
  | _, _ => False
  end.

Inductive grel : forall A B, (A -> B -> Prop) -> gram T1 V1 A -> gram T2 V2 B -> Prop :=
| gr_pure A B (R : A -> B -> Prop) x y : R x y -> grel A B R (GPure x) (GPure y)
| gr_purefn A B (R : A -> B -> Prop) f f' : outrel R (f tt) (f' tt) -> grel A B R (GPureFn f) (GPureFn f')
| gr_unexpected A B (R : A -> B -> Prop) l : grel A B R (GUnexpected l) (GUnexpected l)
| gr_eof : grel unit unit eq GEof GEof
| gr_satisfy test test' : (forall t t', RT t t' -> test t = test' t') ->
    grel T1 T2 RT (GSatisfy test) (GSatisfy test')
| gr_sym teq teq' x x' l : (forall t t', RT t t' -> teq t x = teq' t' x') -> RT x x' ->
    grel T1 T2 RT (GSym teq x l) (GSym teq' x' l)
| gr_literal teq teq' x x' l :
    Forall2 (fun a a' => RT a a' /\ forall t t', RT t t' -> teq t a = teq' t' a') x x' ->
    grel (list T1) (list T2) (Forall2 RT) (GLiteral teq x l) (GLiteral teq' x' l)
| gr_regexp A B (R : A -> B -> Prop) m m' :
    (forall i, k1 + i <= List.length s1 -> matchrel R i (m s1 (k1 + i)) (m' s2 (k2 + i))) ->
    grel A B R (GRegexp m) (GRegexp m')
| gr_fmap A B A' B' (R : A -> B -> Prop) (Q : A' -> B' -> Prop) p p' f f' :
    grel A B R p p' -> (forall x y, R x y -> outrel Q (f x) (f' y)) ->
    grel A' B' Q (GFmap p f) (GFmap p' f')
| gr_alt A B (R : A -> B -> Prop) p p' q q' :
    grel A B R p p' -> grel A B R q q' -> grel A B R (GAlt p q) (GAlt p' q')
| gr_bind A B A' B' (R : A -> B -> Prop) (Q : A' -> B' -> Prop) p p' f f' :
    grel A B R p p' -> (forall x y, R x y -> grel A' B' Q (f x) (f' y)) ->
    grel A' B' Q (GBind p f) (GBind p' f')
| gr_seq A B A' B' A'' B'' (R : A -> B -> Prop) (Q : A' -> B' -> Prop) (S : A'' -> B'' -> Prop)
    p p' q q' merge merge' :
    grel A B R p p' -> grel A' B' Q q q' ->
    (forall x y x' y', R x y -> Q x' y' -> S (merge x x') (merge' y y')) ->
    grel A'' B'' S (GSeq p q merge) (GSeq p' q' merge')
| gr_maybe A B (R : A -> B -> Prop) p p' : grel A B R p p' ->
    grel (option A) (option B) (optrel R) (GMaybe p) (GMaybe p')
| gr_many A B (R : A -> B -> Prop) p p' : grel A B R p p' ->
    grel (list A) (list B) (Forall2 R) (GMany p) (GMany p')
| gr_attempt A B (R : A -> B -> Prop) p p' : grel A B R p p' -> grel A B R (GAttempt p) (GAttempt p')
| gr_label A B (R : A -> B -> Prop) p p' x : grel A B R p p' -> grel A B R (GLabel p x) (GLabel p' x)
| gr_recover A B (R : A -> B -> Prop) p p' : grel A B R p p' -> grel A B R (GRecover p) (GRecover p')
| gr_with A B (R : A -> B -> Prop) p p' x y l : grel A B R p p' -> R x y ->
    grel A B R (GRecoverWith p x l) (GRecoverWith p' y l)
| gr_withfn A B (R : A -> B -> Prop) p p' fn fn' lab lab' : grel A B R p p' ->
    (forall i, k1 + i <= List.length s1 ->
       outrel (fun x y => R x y /\ lab x = lab' y) (fn s1 (k1 + i)) (fn' s2 (k2 + i))) ->
    grel A B R (GRecoverWithFn p fn lab) (GRecoverWithFn p' fn' lab')
| gr_block A B (R : A -> B -> Prop) p p' : lay -> grel A B R p p' -> grel A B R (GBlock p) (GBlock p')
| gr_aligned A B (R : A -> B -> Prop) p p' : lay -> grel A B R p p' ->
    grel A B R (GAligned p) (GAligned p')
| gr_indented A B (R : A -> B -> Prop) d p p' : lay -> grel A B R p p' ->
    grel A B R (GIndented d p) (GIndented d p')
| gr_delay d : grel (V1 d) (V2 d) (RV d) (GDelay d) (GDelay d)
| gr_undef A B (R : A -> B -> Prop) : grel A B R GUndef GUndef
| gr_weaken A B (R Q : A -> B -> Prop) p p' :
    grel A B R p p' -> (forall x y, R x y -> Q x y) -> grel A B Q p p'.

(** ** Corresponding results *)
Variables locof1 locof2 : nat -> loc.
(** locations of corresponding positions *)
Definition locrel2 (l l' : loc) : Prop :=
  exists i, k1 + i <= List.length s1 /\ l = locof1 (k1 + i) /\ l' = locof2 (k2 + i).
(** the same error at corresponding positions *)
Definition errrel (fmt fmt' : loc -> string) (e e' : erroritem) : Prop :=
  locrel2 (ei_loc e) (ei_loc e') /\
  ei_loc_str e = fmt (ei_loc e) /\ ei_loc_str e' = fmt' (ei_loc e') /\
  ei_expected e = ei_expected e' /\ ei_op e = ei_op e'.
(** what [unwrap] gives: related values or the same errors *)
Definition unwraprel {A B} (R : A -> B -> Prop) (fmt fmt' : loc -> string)
    (u : unwrapped A) (u' : unwrapped B) : Prop :=
  match u, u' with
  | Returns x, Returns y => R x y
  | Raises es, Raises es' => Forall2 (errrel fmt fmt') es es'
  | _, _ => False
  end.

End ParamSpec.

(** ** Putting text in front of the input (C56)
    regular expressions and recovery callbacks do not notice that [w] was put in
    front of the input [s] *)
Definition unaware_node {T V} (w s : list T) B (q : gram T V B) : Prop :=
  match q with
  | GRegexp m => forall i, i <= List.length s ->
      m (w ++ s) (List.length w + i) =
      match m s i with Some (e, v) => Some (List.length w + e, v) | None => None end
  | GRecoverWithFn p fn lab => forall i, i <= List.length s ->
      fn (w ++ s) (List.length w + i) = fn s i
  | _ => True
  end.
(** [lay]: layout combinators are allowed *)
Definition prefix_node {T V} (w s : list T) (lay : Prop) B (q : gram T V B) : Prop :=
  wf_node B q /\ unaware_node w s B q /\ (is_layout B q -> lay).
(** tokens that differ in their locations only (lexer.py:18-32) *)
Definition same_token (a b : token) : Prop := tk_kind a = tk_kind b /\ tk_value a = tk_value b.
