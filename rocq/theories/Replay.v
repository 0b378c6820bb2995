(** Proofs for C84: what a plain parse of a text mended so far says. *)
From Verif Require Import Fuel ApiProofs Locations PegSpec PropsPeg DiagProofs PropsDiag PropsTerm PropsTotal PropsLL.
From Verif Require Export ReplaySpec LL RecProofs EditSpec.

Section Replay.
Context {T : Type} {V : nat -> Type}.
Variable E : env T V.
Notation gram := (gram T V).
Hypothesis HE : wf_env E.
Hypothesis HN : forall d, no_layout (E d).
Variable F : nat -> option T -> Prop.
Hypothesis HF : forall d, ll1 E F (E d) (F d).
(** [same X Y]: plain parse expects [X], the error with recovery [Y] *)
Variable same : list string -> list string -> Prop.
Hypothesis same_refl : forall X, same X X.
Hypothesis same_app : forall X X' Y Y', same X X' -> same Y Y' -> same (X ++ Y) (X' ++ Y').
(** how insertions are written *)
Variable put : string -> list (T + string) -> list T -> Prop.
Variable fill : string -> list T.
Definition with_node B (q : gram B) : Prop := single_with E B q /\
  match q with
  | GSym _ x l => put l [inl x] [x]
  | GLiteral _ x l => put l (map inl x) x
  | GRecoverWith p x l => steady E p (fill l) x /\ put l [inr l] (fill l)
  | GRecoverWithFn p fn lab => forall s i x, fn s i = Ret x -> steady E p (fill (lab x)) x /\ put (lab x) [inr (lab x)] (fill (lab x))
  | _ => True
  end.
(** what an item of a repetition leaves pending *)
Definition item_node B (q : gram B) : Prop :=
  match q with
  | GMany p => forall s at_ m i v j X Z Y, diag E s at_ _ p m i (DSucc v j X) -> i <= List.length s -> i < j -> same X Z -> same Y (Z ++ Y)
  | _ => True
  end.

Definition fit B (q : gram B) : Prop :=
  (wf q /\ completable_node E B q /\ quiet_node E B q) /\ (acc_node E B q /\ no_layout q) /\
  (~ is_attempt B q /\ with_node B q) /\ eof_free_node B q /\ forward_node B q /\ item_node B q.
Notation fits := (everywhere E fit).

Section AnyText.
Variables (s : list T) (at_ : nat -> loc).
Notation len := (List.length s).
Let get (_ : loc) (_ : list T) (q : nat) : loc := at_ q.
Lemma any_cohere : cohere get s at_.
Proof. split; auto. Qed.
Lemma any_lay A (p : gram A) : fits p -> lay_ok E p s at_.
Proof using HN. intros H. right. split; [apply (ev_here E _ _ _ H)|apply HN]. Qed.
Lemma any_outcome A (p : gram A) m i : fits p -> i <= len -> exists o, diag E s at_ A p m i o /\ forall e, o <> DExn e.
Proof using HE HN.
  intros H Hi. assert (H1 : wf p) by apply (ev_here E _ _ _ H).
  destruct (lay_gok E A p s at_ HE H1 (any_lay A p H)) as [G1 G2].
  assert (Q : everywhere E (quiet_node E) p) by (intros B q Ho; apply (H B q Ho)).
  assert (G : guarded E p) by (apply guarded_everywhere; intros B q Ho; apply (H B q Ho)).
  set (c := Ctx (T:=T) m (at_ i) get).
  assert (Hc : pos_Cok (T:=T) get at_ i c) by (split; [reflexivity|right; exists i; auto]).
  destruct (fast_term E HE s (List.length s) i ltac:(lia) Hi A p (adm_of E HE _ p H1 (quiet_halting E _ _ Q) G) c) as [n Hn].
  destruct (fast E n p s i c) as [r|e|] eqn:Hf; [| |congruence].
  - exists (match r with SOk o => DSucc (ok_val o) (ok_pos o) (ok_exp o) | SErr e => DFail (er_con e) (er_loc e) (er_exp e) end).
    split; [|destruct r; discriminate]. apply (diag_sound E s get at_ _ any_cohere (fun x => x) G2 n A p i c _ G1 Hi Hc).
    rewrite Hf. destruct r; reflexivity.
  - exfalso. apply (fast_silent E HE s n A p (calm_of E HE _ p H1 Q) i c Hi e Hf).
Qed.
Lemma any_det A (g : gram A) m i o o' : fits g -> i <= len ->
  diag E s at_ A g m i o -> diag E s at_ A g m i o' -> o = o'.
Proof using HE HN.
  intros Hg Hi H H'.
  destruct (lay_gok E A g s at_ HE (proj1 (proj1 (ev_here E _ _ _ Hg))) (any_lay A g Hg)) as [G1 G2].
  set (c := Ctx (T:=T) m (at_ i) get).
  assert (Hc : pos_Cok (T:=T) get at_ i c) by (split; [reflexivity|right; exists i; auto]).
  pose proof (fun o K => diag_complete E s get at_ _ any_cohere (fun x => x) G2 A g m i o K G1 Hi c Hc eq_refl) as HC.
  destruct (HC o H) as [n Hn], (HC o' H') as [n' Hn'].
  assert (K : fast E n g s i c = fast E n' g s i c).
  { apply fast_agree; intros K; rewrite K in *; discriminate. }
  rewrite K in Hn. congruence.
Qed.
Lemma any_reads A (p : gram A) m i K w rest v : fits p -> i <= len -> ll1 E F p K -> skipn i s = w ++ rest ->
  K (hd_error rest) -> sentence E p w v -> exists X, diag E s at_ A p m i (DSucc v (i + List.length w) X).
Proof using HE HN HF.
  intros H Hi HL Hs HK Hv. destruct (any_outcome _ p m i H Hi) as (o & Ho & Hx).
  destruct (ll1_reads E HE F HF s at_ A p m i o Ho (proj1 (proj1 (ev_here E _ _ _ H))) Hi (fun B q h => proj1 (proj2 (proj1 (H B q h)))) K w rest v HL Hs HK Hv) as [[X ->]|[e ->]]; [|destruct (Hx e eq_refl)].
  eauto.
Qed.
Lemma any_misses A (p : gram A) m i : fits p -> i <= len -> ~ nullable E p -> ~ first_is E p (nth_error s i) ->
  exists l X, diag E s at_ A p m i (DFail false l X).
Proof using HE HN.
  intros H Hi Hn Hf. destruct (any_outcome _ p m i H Hi) as (o & Ho & Hx).
  destruct (predict E HE s at_ A p m i o Ho (proj1 (proj1 (ev_here E _ _ _ H))) Hi (fun B q h => proj1 (proj2 (proj1 (H B q h)))) Hn Hf) as [(l & X & ->)|[e ->]]; [|destruct (Hx e eq_refl)].
  eauto.
Qed.
End AnyText.

(** *** operations told by a script, which writes tokens only *)
Fixpoint tells (R : opitem -> nat -> list T -> Prop) (i : nat) (w : list T) (es : list (edit T))
    (ops : list opitem) (fin : list T) : Prop :=
  match es with
  | [] => ops = [] /\ w = fin
  | EKeep t :: es => tells R (i + 1) (w ++ [t]) es ops fin
  | ESkip ts :: es => exists o ops', ops = o :: ops' /\ op_op o = Skip (List.length ts) /\
      R o i w /\ tells R (i + List.length ts) w es ops' fin
  | EIns lb x :: es => exists u o ops', put lb x u /\ ops = o :: ops' /\ op_op o = Insert lb /\
      R o i w /\ tells R i (w ++ u) es ops' fin
  end.
Lemma tells_prefix R es : forall i w ops fin, tells R i w es ops fin -> exists z, fin = w ++ z.
Proof.
  induction es as [|e es IH]; intros i w ops fin H.
  - destruct H as [_ <-]. exists []. rewrite app_nil_r. reflexivity.
  - destruct e as [t|ts|lb x]; cbn [tells] in H.
    + destruct (IH _ _ _ _ H) as [z ->]. exists ([t] ++ z). rewrite app_assoc. reflexivity.
    + destruct H as (o & ops' & _ & _ & _ & H). eauto.
    + destruct H as (u & o & ops' & _ & _ & _ & _ & H). destruct (IH _ _ _ _ H) as [z ->]. exists (u ++ z). rewrite app_assoc. reflexivity.
Qed.
Lemma tells_map (R R' : opitem -> nat -> list T -> Prop) (w0 : list T) (f : opitem -> opitem) fin :
  (forall o, op_op (f o) = op_op o) ->
  forall es i w ops,
  (forall o j w', In o ops -> (exists z, fin = w' ++ z) -> R o j w' -> R' (f o) j (w0 ++ w')) ->
  tells R i w es ops fin -> tells R' i (w0 ++ w) es (map f ops) (w0 ++ fin).
Proof.
  intros Hf. induction es as [|e es IH]; intros i w ops HP H.
  - destruct H as [-> <-]. split; reflexivity.
  - pose proof (tells_prefix _ _ _ _ _ _ H) as Hz. destruct e as [t|ts|lb x]; cbn [tells] in *.
    + rewrite <- app_assoc. apply IH; auto.
    + destruct H as (o & ops' & -> & H1 & H2 & H3). exists (f o), (map f ops').
      split; [reflexivity|]. split; [rewrite Hf; auto|]. split; [apply HP; simpl; auto|].
      apply IH; auto. intros; apply HP; simpl; auto.
    + destruct H as (u & o & ops' & Hput & -> & H1 & H2 & H3). exists u, (f o), (map f ops').
      split; [exact Hput|]. split; [reflexivity|]. split; [rewrite Hf; auto|]. split; [apply HP; simpl; auto|].
      rewrite <- app_assoc. apply IH; auto. intros; apply HP; simpl; auto.
Qed.
Lemma tells_app R es1 es2 : forall i w ops1 ops2 w1 w2,
  tells R i w es1 ops1 w1 -> tells R (i + List.length (edits_in es1)) w1 es2 ops2 w2 ->
  tells R i w (es1 ++ es2) (ops1 ++ ops2) w2.
Proof.
  induction es1 as [|e es IH]; intros i w ops1 ops2 w1 w2 H1 H2.
  - destruct H1 as [-> ->]. cbn in H2. rewrite Nat.add_0_r in H2. exact H2.
  - destruct e as [t|ts|lb x]; cbn [tells app] in *.
    + eapply IH; eauto. unfold edits_in in *. cbn in H2.
      replace (i + 1 + List.length (flat_map edit_in es)) with (i + S (List.length (flat_map edit_in es))) by lia. exact H2.
    + destruct H1 as (o & ops' & -> & K1 & K2 & K3). exists o, (ops' ++ ops2).
      split; [reflexivity|]. split; [auto|]. split; [auto|]. eapply IH; eauto.
      unfold edits_in in *. cbn in H2. rewrite app_length in H2.
      replace (i + List.length ts + List.length (flat_map edit_in es)) with (i + (List.length ts + List.length (flat_map edit_in es))) by lia. exact H2.
    + destruct H1 as (u & o & ops' & Hput & -> & K1 & K2 & K3). exists u, o, (ops' ++ ops2).
      split; [exact Hput|]. split; [reflexivity|]. split; [auto|]. split; [auto|]. eapply IH; eauto.
Qed.
Lemma tells_keep R u : forall i w, tells R i w (map EKeep u) [] (w ++ u).
Proof.
  induction u as [|t u IH]; intros i w; [rewrite app_nil_r; split; reflexivity|].
  cbn [map tells]. change (w ++ t :: u) with (w ++ [t] ++ u). rewrite app_assoc. apply IH.
Qed.

(** *** repairs of a fixed text *)
Variable s : list T.
Variable at_ : nat -> loc.
Notation len := (List.length s).
Definition ne (w : list T) : bool := match w with [] => false | _ => true end.
(** the text [s'] from [i'] on: [w], then what is left of [s] from [i] on *)
Definition text (w : list T) (i : nat) (s' : list T) (i' : nat) : Prop :=
  i' <= List.length s' /\ skipn i' s' = w ++ skipn i s.

Definition R {A} (g : gram A) (i0 : nat) (o : opitem) (i : nat) (w : list T) : Prop :=
  op_loc o = at_ i /\ op_con o = ne w /\ (w = [] -> i = i0) /\
  forall s' at' m' i', text w i s' i' ->
  exists X, diag E s' at' A g m' i' (DFail (ne w) (at' (i' + List.length w)) X) /\ same X (op_exp o).

Definition nar {A} (g : gram A) (i : nat) (r : offer A) : Prop := exists es t,
  edits_in es = slice s i (f_pos r) /\ i <= f_pos r <= len /\ t <> [] /\ sentence E g t (f_val r) /\
  tells (R g i) i [] es (f_ops r) t /\ f_con r = true /\
  forall s' at' m' i', text t (f_pos r) s' i' ->
  exists X, diag E s' at' A g m' i' (DSucc (f_val r) (i' + List.length t) X) /\ same X (f_exp r).

Definition fails {A} (g : gram A) (i : nat) (b : bool) (l : loc) (X : list string) : Prop :=
  exists p, l = at_ p /\ i <= p <= len /\ b = Nat.ltb i p /\
  forall s' at' m' i', text [] i s' i' -> diag E s' at' A g m' i' (DFail b (at' (i' + (p - i))) X).
Definition closed {A} (r : offer A) : Prop := forall o, In o (f_ops r) -> op_con o = true.
Definition good {A} (rem : option Z) (g : gram A) (i : nat) (o : rres A) : Prop :=
  match o with
  | RSucc v j X => i <= j <= len /\ sentence E g (slice s i j) v /\
      forall s' at' m' i', text [] i s' i' -> diag E s' at' A g m' i' (DSucc v (i' + (j - i)) X)
  | RFail b l X => fails g i b l X
  | ROffer _ b l X rs => (exists Z, fails g i b l Z /\ (b = false -> ~ bare_with E A g -> Z = X)) /\ (rem = None -> b = true) /\
      forall r, In r rs -> nar g i r /\ (rem = None -> closed r)
  | RExn _ => True
  end.

Lemma text_self i : i <= len -> text [] i s i.
Proof. split; auto. Qed.
Lemma text_step w w' i s' i' : text (w ++ w') i s' i' -> text w' i s' (i' + List.length w).
Proof.
  intros [H1 H2]. rewrite <- app_assoc in H2. destruct (skipn_next s' i' w _ H1 H2). split; auto.
Qed.
Lemma skipn_slice i j : i <= j -> skipn i s = slice s i j ++ skipn j s.
Proof.
  intros H. unfold slice. replace (skipn j s) with (skipn (j - i) (skipn i s)).
  - symmetry. apply firstn_skipn.
  - rewrite skipn_skipn. f_equal. lia.
Qed.
Lemma text_slice w i j s' i' : i <= j -> text (w ++ slice s i j) j s' i' <-> text w i s' i'.
Proof. intros H. unfold text. rewrite (skipn_slice i j H), <- app_assoc. tauto. Qed.
Lemma ne_app a b : ne (a ++ b) = ne a || ne b.
Proof. destruct a; reflexivity. Qed.
Lemma slice_ne i j : i <= j <= len -> ne (slice s i j) = Nat.ltb i j.
Proof.
  intros H. destruct (Nat.ltb_spec i j) as [L|L].
  - destruct (slice_head s i j L (proj2 H)) as (t & w & -> & _). reflexivity.
  - assert (j = i) as -> by lia. rewrite slice_nil. reflexivity.
Qed.

(** the same repair, seen from a larger parser *)
Lemma nar_wrap A B (p : gram A) (g : gram B) i (r : offer A) (r' : offer B) (f : opitem -> opitem) :
  (forall w, sentence E p w (f_val r) -> sentence E g w (f_val r')) ->
  f_pos r' = f_pos r -> f_ops r' = map f (f_ops r) -> f_con r' = f_con r -> (f_con r = true -> f_exp r' = f_exp r) ->
  (forall o, op_op (f o) = op_op o /\ op_loc (f o) = op_loc o /\ op_con (f o) = op_con o) ->
  (forall o, op_con o = true -> f o = o) ->
  (forall t0 rest s' at' m' i', first E p t0 -> i' <= List.length s' -> skipn i' s' = t0 :: rest ->
     (forall j X, i' < j -> diag E s' at' A p m' i' (DSucc (f_val r) j X) -> diag E s' at' B g m' i' (DSucc (f_val r') j X)) /\
     (forall l X, diag E s' at' A p m' i' (DFail true l X) -> diag E s' at' B g m' i' (DFail true l X))) ->
  (forall o s' at' m' i' X, In o (f_ops r) -> op_con o = false -> text [] i s' i' ->
     diag E s' at' A p m' i' (DFail false (at' i') X) -> same X (op_exp o) ->
     exists X', diag E s' at' B g m' i' (DFail false (at' i') X') /\ same X' (op_exp (f o))) ->
  nar p i r -> nar g i r'.
Proof.
  intros Hv E1 E2 E3 E4 F1 F2 Hb He (es & t & K1 & K2 & K3 & K4 & K5 & K6 & K7).
  assert (FT : forall t0 w z, t = (t0 :: w) ++ z -> first E p t0) by (intros t0 w z ->; exists (w ++ z), (f_val r); exact K4).
  exists es, t. rewrite E1, E2, E3, E4 by auto. split; [auto|]. split; [auto|]. split; [auto|]. split; [auto|].
  split; [|split; [auto|]].
  - apply (tells_map (R p i) (R g i) [] f t); auto; [intros o; apply F1|].
    intros o j w Ho (z & Hz) (R1 & R2 & R3 & R4). cbn [app]. destruct (F1 o) as (G1 & G2 & G3).
    split; [congruence|]. split; [congruence|]. split; [auto|]. intros s' at' m' i' Ht.
    destruct (R4 s' at' m' i' Ht) as (X & D & S). destruct w as [|t0 w].
    + specialize (R3 eq_refl). subst j. cbn [ne List.length] in *. rewrite Nat.add_0_r in *. eauto.
    + rewrite (F2 o R2). exists X. split; auto. cbn [ne] in *. destruct Ht as [T1 T2].
      apply (Hb t0 (w ++ skipn j s) s' at' m' i' (FT _ _ _ Hz) T1 T2). exact D.
  - intros s' at' m' i' Ht. destruct (K7 s' at' m' i' Ht) as (X & D & S). exists X. split; auto.
    destruct t as [|t0 w]; [congruence|]. destruct Ht as [T1 T2].
    apply (Hb t0 (w ++ skipn (f_pos r) s) s' at' m' i' (FT _ _ [] (eq_sym (app_nil_r _))) T1 T2); auto. cbn. lia.
Qed.
Lemma closed_map {A B} (r : offer A) (r' : offer B) (f : opitem -> opitem) :
  f_ops r' = map f (f_ops r) -> (forall o, op_con (f o) = op_con o) -> closed r -> closed r'.
Proof. intros H1 H2 H o Ho. rewrite H1 in Ho. apply in_map_iff in Ho as (o' & <- & Ho). rewrite H2. auto. Qed.

(** *** sequencing *)
Section Then.
Context {A B C : Type} (p : gram A) (k : A -> gram B) (g : gram C) (merge : A -> B -> C).
Variable strict : bool.
Variable Kp : option T -> Prop.
Hypothesis Fp : fits p.
Hypothesis Lp : ll1 E F p Kp.
Hypothesis HK : forall w v t, sentence E p w v -> first E (k v) t -> Kp (Some t).
Hypothesis Hj : forall w v w' v', sentence E p w v -> sentence E (k v) w' v' -> sentence E g (w ++ w') (merge v v').
Hypothesis Df : forall s' at' m' i' b l X, (strict = true -> b = true) ->
  diag E s' at' A p m' i' (DFail b l X) -> diag E s' at' C g m' i' (DFail b l X).
Hypothesis Ds : forall s' at' m' i' v j' X' w k' Y Z, i' <= List.length s' ->
  diag E s' at' A p m' i' (DSucc v j' X') -> diag E s' at' B (k v) m' j' (DSucc w k' Y) -> same X' Z ->
  i' <= j' -> (strict = true -> i' < j') ->
  exists Y', diag E s' at' C g m' i' (DSucc (merge v w) k' Y') /\ (j' < k' -> Y' = Y) /\ (k' <= j' -> same Y' (Z ++ Y) /\ (strict = false -> Y' = X' ++ Y)).
Hypothesis De : forall s' at' m' i' v j' X' b l Y,
  diag E s' at' A p m' i' (DSucc v j' X') -> diag E s' at' B (k v) m' j' (DFail b l Y) ->
  i' <= j' -> (strict = true -> i' < j') ->
  exists Y', diag E s' at' C g m' i' (DFail (b || Nat.ltb i' j') l Y') /\ (b = true -> Y' = Y) /\ (b = false -> Y' = X' ++ Y).

(** [p], having written [t], before a word of [k v] *)
Lemma reads_then t v w z rest s' at' m' i' v' : sentence E p t v -> sentence E (k v) (w ++ z) v' -> w <> [] ->
  i' <= List.length s' -> skipn i' s' = t ++ w ++ rest ->
  exists X, diag E s' at' A p m' i' (DSucc v (i' + List.length t) X).
Proof using HE HN HF Fp Lp HK.
  intros Ht Hw Hn Hi Hs. destruct w as [|t0 w]; [congruence|].
  apply (any_reads s' at' A p m' i' Kp t ((t0 :: w) ++ rest) v); auto. cbn. eapply HK; eauto. exists (w ++ z), v'. exact Hw.
Qed.

Lemma nar_after i j v X (r : offer B) : i <= j <= len -> (strict = true -> i < j) -> sentence E p (slice s i j) v ->
  (forall s' at' m' i', text [] i s' i' -> diag E s' at' A p m' i' (DSucc v (i' + (j - i)) X)) ->
  nar (k v) j r -> nar g i (f_with (f_after (Nat.ltb i j) X r) (merge v (f_val r))).
Proof using HE HN HF Fp Lp HK Hj Ds De same_refl same_app.
  intros Hij Hst Hv HX (es & t & K1 & K2 & K3 & K4 & K5 & K6 & K7).
  destruct (edits_keep (slice s i j) i) as (I1 & I2 & I3). assert (SL : List.length (slice s i j) = j - i) by (apply slice_len; lia).
  exists (map EKeep (slice s i j) ++ es), (slice s i j ++ t). cbn [f_pos f_with f_after f_val f_ops f_exp f_con].
  rewrite edits_in_app, I1, K1. split; [apply slice_app; lia|]. split; [lia|].
  split; [intros H; apply app_eq_nil in H; tauto|]. split; [auto|]. rewrite K6. split; [|split; [auto|]].
  - replace (map (op_after (Nat.ltb i j) X) (f_ops r)) with ([] ++ map (op_after (Nat.ltb i j) X) (f_ops r)) by reflexivity.
    eapply tells_app; [apply tells_keep|]. cbn [app]. rewrite I1, SL.
    replace (i + (j - i)) with j by lia. rewrite <- (app_nil_r (slice s i j)) at 1.
    apply (tells_map (R (k v) j) (R g i) (slice s i j) (op_after (Nat.ltb i j) X) t); auto.
    { intros o; unfold op_after; destruct (op_con o); reflexivity. }
    intros o n w Ho (z & Hz) (R1 & R2 & R3 & R4). unfold op_after. rewrite R2. destruct w as [|t0 w].
    + cbn [ne]. specialize (R3 eq_refl). subst n. rewrite app_nil_r. split; [auto|].
      split; [cbn [op_con]; symmetry; apply slice_ne; lia|]. split.
      { intros Q. assert (ne (slice s i j) = false) as Q' by (rewrite Q; reflexivity). rewrite slice_ne in Q' by lia. apply Nat.ltb_ge in Q'. lia. }
      intros s' at' m' i' Ht. pose proof (proj1 (text_slice [] i j s' i' (proj1 Hij)) Ht) as Ht'.
      pose proof (HX s' at' m' i' Ht') as D1. rewrite <- (app_nil_r (slice s i j)) in Ht. apply text_step in Ht. rewrite SL in Ht.
      destruct (R4 s' at' m' _ Ht) as (Y & D2 & S2). cbn [ne List.length] in D2. rewrite Nat.add_0_r in D2.
      destruct (De s' at' m' i' v _ X _ _ Y D1 D2 ltac:(lia) ltac:(intros Q; specialize (Hst Q); lia)) as (Y' & D3 & _ & E3).
      exists Y'. cbn [op_exp]. rewrite SL, slice_ne by lia. cbn [orb] in D3.
      replace (Nat.ltb i j) with (Nat.ltb i' (i' + (j - i))); [split; [exact D3|]; rewrite (E3 eq_refl); auto|].
      destruct (Nat.ltb_spec i j); [apply Nat.ltb_lt|apply Nat.ltb_ge]; lia.
    + cbn [ne]. split; [auto|]. split; [rewrite ne_app, R2; cbn; rewrite orb_true_r; reflexivity|].
      split; [intros Q; apply app_eq_nil in Q; destruct Q; discriminate|].
      intros s' at' m' i' Ht. pose proof (proj2 Ht) as T2. rewrite <- app_assoc in T2. rewrite Hz in K4.
      destruct (reads_then _ _ (t0 :: w) z _ s' at' m' i' _ Hv K4 ltac:(discriminate) (proj1 Ht) T2) as (X1 & D1).
      apply text_step in Ht. destruct (R4 s' at' m' _ Ht) as (Y & D2 & S2). rewrite SL in *.
      destruct (De s' at' m' i' v _ X1 _ _ Y D1 D2 ltac:(lia) ltac:(intros Q; specialize (Hst Q); lia)) as (Y' & D3 & E3 & _).
      exists Y'. rewrite app_length, SL. rewrite ne_app, orb_true_r. cbn [ne orb] in D3. rewrite Nat.add_assoc. split; auto. rewrite E3; auto.
  - intros s' at' m' i' Ht. pose proof (proj2 Ht) as T2. rewrite <- app_assoc in T2.
    rewrite <- (app_nil_r t) in K4.
    destruct (reads_then _ _ t [] _ s' at' m' i' _ Hv K4 K3 (proj1 Ht) T2) as (X1 & D1).
    pose proof (proj1 Ht) as Hi'. apply text_step in Ht. destruct (K7 s' at' m' _ Ht) as (Y & D2 & S2). rewrite SL in *.
    destruct (Ds s' at' m' i' v _ X1 _ _ Y X1 Hi' D1 D2 (same_refl _) ltac:(lia) ltac:(intros Q; specialize (Hst Q); lia)) as (Y' & D3 & E3 & _).
    exists Y'. rewrite app_length, SL, Nat.add_assoc. split; auto. rewrite E3; auto. destruct t; [congruence|]. cbn. lia.
Qed.

Section R1.
Variable i : nat.
Variable r : offer A.
Hypothesis Hcl : strict = true -> closed r.
Lemma tells_first es t : tells (R p i) i [] es (f_ops r) t -> tells (R g i) i [] es (f_ops r) t.
Proof using Df Hcl.
  intros H. rewrite <- (map_id (f_ops r)). apply (tells_map (R p i) (R g i) [] (fun o => o) t); auto.
  intros o j w Ho _ (R1 & R2 & R3 & R4). cbn [app]. split; [auto|]. split; [auto|]. split; [auto|].
  intros s' at' m' i' Ht. destruct (R4 s' at' m' i' Ht) as (X & D & S). exists X. split; auto. apply Df; auto.
  intros Q. rewrite <- R2. apply (Hcl Q). exact Ho.
Qed.
Lemma nar_then_succ ins w j Y : nar p i r -> f_pos r <= j <= len -> sentence E (k (f_val r)) (slice s (f_pos r) j) w ->
  (forall s' at' m' i', text [] (f_pos r) s' i' -> diag E s' at' B (k (f_val r)) m' i' (DSucc w (i' + (j - f_pos r)) Y)) ->
  nar g i (f_then_succ ins merge r w j Y).
Proof using HE HN HF Fp Lp HK Hj Df Ds same_refl same_app Hcl.
  intros (es & t & K1 & K2 & K3 & K4 & K5 & K6 & K7) Hjl Hw HY.
  destruct (edits_keep (slice s (f_pos r) j) (f_pos r)) as (I1 & I2 & I3).
  assert (SL : List.length (slice s (f_pos r) j) = j - f_pos r) by (apply slice_len; lia).
  exists (es ++ map EKeep (slice s (f_pos r) j)), (t ++ slice s (f_pos r) j).
  cbn [f_pos f_then_succ f_val f_ops f_exp f_con].
  rewrite edits_in_app, I1, K1. split; [apply slice_app; lia|]. split; [lia|].
  split; [intros Q; apply app_eq_nil in Q; tauto|]. split; [auto|]. rewrite K6. split; [|split; [auto|]].
  - rewrite <- (app_nil_r (f_ops r)). eapply tells_app; [apply tells_first; eauto|apply tells_keep].
  - intros s' at' m' i' Ht. pose proof (proj1 (text_slice t (f_pos r) j s' i' (proj1 Hjl)) Ht) as Ht'.
    destruct (K7 s' at' m' i' Ht') as (X & D1 & S1).
    pose proof (proj1 Ht) as Hi'. rewrite <- (app_nil_r t) in Ht'. apply text_step in Ht'. pose proof (HY s' at' m' _ Ht') as D2.
    assert (L : 0 < List.length t) by (destruct t; [congruence|cbn; lia]).
    destruct (Ds s' at' m' i' _ _ X _ _ Y (f_exp r) Hi' D1 D2 S1 ltac:(lia) ltac:(lia)) as (Y' & D3 & E3 & E4).
    exists Y'. rewrite app_length, SL, Nat.add_assoc. split; auto.
    destruct (Nat.ltb_spec (f_pos r) j); [rewrite E3 by lia; auto|apply E4; lia].
Qed.
Lemma nar_then_repair (r' : offer B) : nar p i r -> nar (k (f_val r)) (f_pos r) r' -> nar g i (f_then_repair merge r r').
Proof using HE HN HF Fp Lp HK Hj Df Ds De same_refl same_app Hcl.
  intros (es & t & K1 & K2 & K3 & K4 & K5 & K6 & K7) (es' & t' & L1 & L2 & L3 & L4 & L5 & L6 & L7).
  assert (L : 0 < List.length t) by (destruct t; [congruence|cbn; lia]).
  assert (Nt : ne t = true) by (destruct t; [congruence|reflexivity]).
  exists (es ++ es'), (t ++ t'). cbn [f_pos f_then_repair f_val f_ops f_exp f_con].
  rewrite edits_in_app, K1, L1. split; [apply slice_app; lia|]. split; [lia|].
  split; [intros Q; apply app_eq_nil in Q; tauto|]. split; [auto|]. rewrite K6, L6. split; [|split; [auto|]].
  - eapply tells_app; [apply tells_first; eauto|]. rewrite K1, slice_len by lia.
    replace (i + (f_pos r - i)) with (f_pos r) by lia. rewrite <- (app_nil_r t) at 1.
    apply (tells_map (R (k (f_val r)) (f_pos r)) (R g i) t (op_after true (f_exp r)) t'); auto.
    { intros o; unfold op_after; destruct (op_con o); reflexivity. }
    intros o n w Ho (z & Hz) (R1 & R2 & R3 & R4). unfold op_after. rewrite R2. destruct w as [|t0 w].
    + cbn [ne]. specialize (R3 eq_refl). subst n. rewrite app_nil_r. split; [auto|]. split; [cbn [op_con]; congruence|].
      split; [congruence|]. intros s' at' m' i' Ht. destruct (K7 s' at' m' i' Ht) as (X & D1 & S1).
      rewrite <- (app_nil_r t) in Ht. apply text_step in Ht. destruct (R4 s' at' m' _ Ht) as (Y & D2 & S2).
      cbn [ne List.length] in D2. rewrite Nat.add_0_r in D2.
      destruct (De s' at' m' i' _ _ X _ _ Y D1 D2 ltac:(lia) ltac:(lia)) as (Y' & D3 & _ & E3).
      exists Y'. cbn [op_exp]. rewrite Nt. cbn [orb] in D3. rewrite (proj2 (Nat.ltb_lt _ _)) in D3 by lia.
      split; [exact D3|]. rewrite (E3 eq_refl). auto.
    + cbn [ne]. split; [auto|]. split; [rewrite ne_app, R2, Nt; reflexivity|].
      split; [intros Q; apply app_eq_nil in Q; destruct Q; discriminate|].
      intros s' at' m' i' Ht. pose proof (proj2 Ht) as T2. rewrite <- app_assoc in T2. rewrite Hz in L4.
      destruct (reads_then _ _ (t0 :: w) z _ s' at' m' i' _ K4 L4 ltac:(discriminate) (proj1 Ht) T2) as (X1 & D1).
      apply text_step in Ht. destruct (R4 s' at' m' _ Ht) as (Y & D2 & S2).
      destruct (De s' at' m' i' _ _ X1 _ _ Y D1 D2 ltac:(lia) ltac:(lia)) as (Y' & D3 & E3 & _).
      exists Y'. rewrite app_length, ne_app, Nt. cbn [ne orb] in *. rewrite Nat.add_assoc. split; auto. rewrite E3; auto.
  - intros s' at' m' i' Ht. pose proof (proj2 Ht) as T2. rewrite <- app_assoc in T2.
    rewrite <- (app_nil_r t') in L4.
    destruct (reads_then _ _ t' [] _ s' at' m' i' _ K4 L4 L3 (proj1 Ht) T2) as (X1 & D1).
    pose proof (proj1 Ht) as Hi'. apply text_step in Ht. destruct (L7 s' at' m' _ Ht) as (Y & D2 & S2).
    destruct (Ds s' at' m' i' _ _ X1 _ _ Y X1 Hi' D1 D2 (same_refl _) ltac:(lia) ltac:(lia)) as (Y' & D3 & E3 & _).
    exists Y'. rewrite app_length, Nat.add_assoc. split; auto. rewrite E3; auto. destruct t'; [congruence|]. cbn. lia.
Qed.
End R1.
End Then.

(** *** primitive repairs *)
Lemma text_nth i s' i' : text [] i s' i' -> nth_error s' i' = nth_error s i.
Proof. intros [_ H]. cbn [app] in H. rewrite <- !hd_skipn, H. reflexivity. Qed.
Lemma nar_skip A (g : gram A) ins v i j k X : i < j -> j < k -> k <= len -> sentence E g (slice s j k) v ->
  (forall s' at' m' i', text [] i s' i' -> diag E s' at' A g m' i' (DFail false (at' i') X)) ->
  (forall s' at' m' i', text [] j s' i' -> diag E s' at' A g m' i' (DSucc v (i' + (k - j)) [])) ->
  nar g i (f_skip ins v k (at_ i) (j - i) X true).
Proof using same_refl.
  intros H1 H2 H3 H4 H5 H6. destruct (edits_keep (slice s j k) j) as (I1 & I2 & I3).
  assert (SL : List.length (slice s j k) = k - j) by (apply slice_len; lia).
  exists (ESkip (slice s i j) :: map EKeep (slice s j k)), (slice s j k). cbn [f_skip f_pos f_val f_ops f_exp f_con].
  split; [unfold edits_in in *; cbn; rewrite I1; apply slice_app; lia|]. split; [lia|].
  split; [intros Q; rewrite Q in SL; cbn in SL; lia|]. split; [auto|]. split; [|split; [auto|]].
  - cbn [tells]. eexists _, []. split; [reflexivity|]. cbn [op_op]. rewrite slice_len by lia.
    split; [reflexivity|]. split; [|apply (tells_keep (R g i) (slice s j k) _ [])]. split; [reflexivity|]. split; [reflexivity|]. split; [auto|].
    intros s' at' m' i' Ht. exists X. cbn [ne List.length op_exp]. rewrite Nat.add_0_r. split; auto.
  - intros s' at' m' i' Ht. exists []. rewrite SL. split; auto. apply H6. apply (text_slice [] j k); auto. lia.
Qed.
Lemma nar_put A (g : gram A) rank lf x i lb z u X : put lb z u -> i <= len -> u <> [] -> sentence E g u x ->
  (forall s' at' m' i', text [] i s' i' -> diag E s' at' A g m' i' (DFail false (at' i') X)) ->
  (forall s' at' m' i', text u i s' i' -> diag E s' at' A g m' i' (DSucc x (i' + List.length u) [])) ->
  nar g i (f_insert rank lf x i (at_ i) lb X).
Proof using same_refl.
  intros Hp H1 H2 H3 H4 H5. exists [EIns lb z], u. cbn [f_insert f_pos f_val f_ops f_exp f_con].
  split; [rewrite slice_nil; reflexivity|]. split; [lia|]. split; [auto|]. split; [auto|]. split; [|split; [auto|]].
  - cbn [tells]. eexists u, _, []. split; [exact Hp|]. split; [reflexivity|]. split; [reflexivity|].
    split; [|split; reflexivity]. split; [reflexivity|]. split; [reflexivity|]. split; [auto|].
    intros s' at' m' i' Ht. exists X. cbn [ne List.length op_exp]. rewrite Nat.add_0_r. split; auto.
  - intros s' at' m' i' Ht. exists []. split; auto.
Qed.

(** *** outcomes *)
Lemma fails_here A (g : gram A) i X : i <= len ->
  (forall s' at' m' i', text [] i s' i' -> diag E s' at' A g m' i' (DFail false (at' i') X)) -> fails g i false (at_ i) X.
Proof.
  intros Hi H. exists i. split; [auto|]. split; [lia|]. split; [symmetry; apply Nat.ltb_ge; lia|].
  intros s' at' m' i' Ht. rewrite Nat.sub_diag, Nat.add_0_r. auto.
Qed.
Lemma fails_false A (g : gram A) i l X : fails g i false l X -> l = at_ i /\
  forall s' at' m' i', text [] i s' i' -> diag E s' at' A g m' i' (DFail false (at' i') X).
Proof.
  intros (p & H1 & H2 & H3 & H4). symmetry in H3. apply Nat.ltb_ge in H3. assert (p = i) as -> by lia.
  split; [auto|]. intros s' at' m' i' Ht. specialize (H4 s' at' m' i' Ht). rewrite Nat.sub_diag, Nat.add_0_r in H4. exact H4.
Qed.
Lemma fails_map A B (p : gram A) (g : gram B) i b l X X' :
  (forall s' at' m' i' l', text [] i s' i' -> diag E s' at' A p m' i' (DFail b l' X) -> diag E s' at' B g m' i' (DFail b l' X')) ->
  fails p i b l X -> fails g i b l X'.
Proof. intros H (q & H1 & H2 & H3 & H4). exists q. split; [auto|]. split; [auto|]. split; [auto|]. intros. apply H; auto. Qed.
Lemma fails_unique A (g : gram A) i b l X b' l' X' : fits g -> i <= len -> fails g i b l X -> fails g i b' l' X' -> b = b' /\ X = X'.
Proof using HE HN.
  intros Hg Hi (q & _ & _ & _ & H) (q' & _ & _ & _ & H').
  pose proof (any_det s at_ A g 0%Z i _ _ Hg Hi (H s at_ 0%Z i (text_self i Hi)) (H' s at_ 0%Z i (text_self i Hi))) as Q.
  injection Q as -> _ ->. auto.
Qed.

(** situations: the text is as it was, or starts like a sentence *)
Definition sit {A} (p : gram A) (i : nat) (s' : list T) (i' : nat) : Prop :=
  text [] i s' i' \/ exists t0 rest, first E p t0 /\ i' <= List.length s' /\ skipn i' s' = t0 :: rest.
Lemma good_wrap A B (p : gram A) (g : gram B) (h : A -> B) rem i o (moved ahead : bool) :
  (forall w v, sentence E p w v -> sentence E g w (h v)) ->
  (forall s' at' m' i' v j X, sit p i s' i' -> (moved = true -> i' < j) ->
     diag E s' at' A p m' i' (DSucc v j X) -> diag E s' at' B g m' i' (DSucc (h v) j X)) ->
  (forall s' at' m' i' b l X, sit p i s' i' -> (ahead = true -> b = true) ->
     diag E s' at' A p m' i' (DFail b l X) -> diag E s' at' B g m' i' (DFail b l X)) ->
  (moved = true -> forall v j X, o = RSucc v j X -> i < j) ->
  (ahead = true -> rem = None /\ settled o) ->
  (ahead = false -> bare_with E A p -> bare_with E B g) ->
  good rem p i o -> good rem g i (on_rvalue h o).
Proof.
  intros Hv HS HFl Hm Ha Hba K. destruct o as [v j X|b l X|n b l X rs|e]; cbn [on_rvalue good] in *.
  - destruct K as (K1 & K2 & K3). split; [auto|]. split; [auto|]. intros s' at' m' i' Ht.
    apply HS; [left; auto| |auto]. intros Q. specialize (Hm Q _ _ _ eq_refl). lia.
  - eapply fails_map; [|exact K]. intros s' at' m' i' l' Ht. apply HFl; [left; auto|]. intros Q. apply (Ha Q).
  - destruct K as ((Z & K1 & KZ) & K0 & K2). split; [|split; [auto|]].
    + exists Z. split.
      * eapply fails_map; [|exact K1]. intros s' at' m' i' l' Ht. apply HFl; [left; auto|]. intros Q. apply (Ha Q).
      * intros -> Hb. apply KZ; auto. intros Q. apply Hb. apply Hba; auto. destruct ahead; auto. destruct (Ha eq_refl) as [_ Q']. discriminate.
    + intros r' Hr. apply in_map_iff in Hr as (r & <- & Hr). destruct (K2 _ Hr) as [K3 K4]. split; [|exact K4].
      apply (nar_wrap A B p g i r (f_with r (h (f_val r))) (fun o => o)); cbn [f_with f_val f_pos f_ops f_exp f_con]; rewrite ?map_id; auto.
      * intros t0 rest s' at' m' i' Hf Hi Hs. assert (Q : sit p i s' i') by (right; eauto). split; intros.
        -- apply HS; auto.
        -- apply HFl; auto.
      * intros o s' at' m' i' X' Ho Hoc Ht D Sm. exists X'. split; [|auto]. apply HFl; [left; auto| |auto].
        intros Q. destruct (Ha Q) as [Ha1 _]. rewrite (K4 Ha1 _ Ho) in Hoc. discriminate.
  - exact I.
Qed.
Lemma on_rvalue_id {A} (o : rres A) : on_rvalue (fun x => x) o = o.
Proof.
  destruct o as [| |n b l X rs|]; try reflexivity. cbn. f_equal. rewrite <- (map_id rs) at 2.
  apply map_ext. intros []; reflexivity.
Qed.
Lemma good_rem A (g : gram A) rem i o : good None g i o -> good rem g i o.
Proof.
  destruct o as [v j X|b l X|n b l X rs|e]; cbn; auto.
  intros (K1 & K0 & K2). split; auto. split; auto. intros r Hr. destruct (K2 r Hr) as [K3 K4]. split; auto.
Qed.

(** *** linked parsers *)
Definition linked {A B C} (p : gram A) (k : A -> gram B) (g : gram C) (merge : A -> B -> C) (strict : bool)
    (Kp : option T -> Prop) : Prop :=
  (fits p /\ ll1 E F p Kp /\ (forall w v t, sentence E p w v -> first E (k v) t -> Kp (Some t))) /\
  (forall w v w' v', sentence E p w v -> sentence E (k v) w' v' -> sentence E g (w ++ w') (merge v v')) /\
  (forall s' at' m' i' b l X, (strict = true -> b = true) ->
     diag E s' at' A p m' i' (DFail b l X) -> diag E s' at' C g m' i' (DFail b l X)) /\
  (forall s' at' m' i' v j' X' w k' Y Z, i' <= List.length s' ->
     diag E s' at' A p m' i' (DSucc v j' X') -> diag E s' at' B (k v) m' j' (DSucc w k' Y) -> same X' Z ->
     i' <= j' -> (strict = true -> i' < j') ->
     exists Y', diag E s' at' C g m' i' (DSucc (merge v w) k' Y') /\ (j' < k' -> Y' = Y) /\ (k' <= j' -> same Y' (Z ++ Y) /\ (strict = false -> Y' = X' ++ Y))) /\
  (forall s' at' m' i' v j' X' b l Y,
     diag E s' at' A p m' i' (DSucc v j' X') -> diag E s' at' B (k v) m' j' (DFail b l Y) ->
     i' <= j' -> (strict = true -> i' < j') ->
     exists Y', diag E s' at' C g m' i' (DFail (b || Nat.ltb i' j') l Y') /\ (b = true -> Y' = Y) /\ (b = false -> Y' = X' ++ Y)).

Lemma linked_seq A B C (p : gram A) (q : gram B) (f : A -> B -> C) K : fits (GSeq p q f) -> ll1 E F (GSeq p q f) K ->
  linked p (fun _ => q) (GSeq p q f) f false (starts E q K).
Proof using same_app same_refl.
  intros Hf HL. cbn [ll1] in HL. destruct HL as [L1 L2]. split; [|split; [|split; [|split]]].
  - split; [eapply ev_seq_l; eauto|]. split; [auto|]. intros w v t _ Ht. left. exact Ht.
  - intros. apply se_seq; auto.
  - intros. apply dg_seq_fail. auto.
  - intros s' at' m' i' v j' X' w k' Y Z _ D1 D2 Sm Hij _.
    pose proof (dg_seq E s' at' A B C p q f m' i' v j' X' _ D1 D2) as D. cbn [d_after on_dvalue] in D.
    eexists. split; [exact D|]. split; intros Hk.
    + rewrite (proj2 (Nat.ltb_lt _ _)) by auto. reflexivity.
    + rewrite (proj2 (Nat.ltb_ge _ _)) by auto. split; auto.
  - intros s' at' m' i' v j' X' b l Y D1 D2 Hij _.
    pose proof (dg_seq E s' at' A B C p q f m' i' v j' X' _ D1 D2) as D. cbn [d_after on_dvalue] in D.
    destruct b; cbn [on_dvalue] in D; (eexists; split; [exact D|split; congruence]).
Qed.
Lemma linked_bind A B (p : gram A) (f : A -> gram B) K : fits (GBind p f) -> ll1 E F (GBind p f) K ->
  linked p f (GBind p f) (fun _ w => w) false (fun o => exists w v, sentence E p w v /\ starts E (f v) K o).
Proof using same_app same_refl.
  intros Hf HL. cbn [ll1] in HL. destruct HL as [L1 L2]. split; [|split; [|split; [|split]]].
  - split; [eapply ev_bind_l; eauto|]. split; [auto|]. intros w v t Hw Ht. exists w, v. split; [auto|]. left. exact Ht.
  - intros. eapply se_bind; eauto.
  - intros. apply dg_bind_fail. auto.
  - intros s' at' m' i' v j' X' w k' Y Z _ D1 D2 Sm Hij _.
    pose proof (dg_bind E s' at' A B p f m' i' v j' X' _ D1 D2) as D. cbn [d_after] in D.
    eexists. split; [exact D|]. split; intros Hk.
    + rewrite (proj2 (Nat.ltb_lt _ _)) by auto. reflexivity.
    + rewrite (proj2 (Nat.ltb_ge _ _)) by auto. split; auto.
  - intros s' at' m' i' v j' X' b l Y D1 D2 Hij _.
    pose proof (dg_bind E s' at' A B p f m' i' v j' X' _ D1 D2) as D. cbn [d_after] in D.
    destruct b; (eexists; split; [exact D|split; congruence]).
Qed.
Lemma first_many A (p : gram A) t : ~ nullable E p -> first E (GMany p) t -> first E p t.
Proof.
  intros Hn (w & l & H). pose proof (sent_inv _ _ _ _ _ H) as M. cbn in M.
  destruct M as [[M _]|(u1 & u2 & v1 & l1 & M1 & _ & M2 & _)]; [discriminate|].
  destruct u1 as [|t1 u1]; [exfalso; apply Hn; eexists; exact M2|]. injection M1 as <- _. eexists _, _. exact M2.
Qed.
Lemma linked_many A (p : gram A) K : fits (GMany p) -> ll1 E F (GMany p) K ->
  linked p (fun _ => GMany p) (GMany p) cons true (fun o => first_is E p o \/ K o).
Proof using same_app same_refl.
  intros Hf HL. cbn [ll1] in HL. destruct HL as (L1 & L2 & L3). split; [|split; [|split; [|split]]].
  - split; [eapply ev_many; eauto|]. split; [auto|]. intros w v t _ Ht. left. cbn. apply first_many; auto.
  - intros. apply se_many; auto.
  - intros s' at' m' i' b l X Hb D. rewrite (Hb eq_refl) in *. apply dg_many_fail. auto.
  - intros s' at' m' i' v j' X' w k' Y Z Hi D1 D2 Sm Hij Hst. exists Y.
    split; [eapply dg_many_more; eauto|]. split; [auto|]. intros _.
    pose proof (ev_here E _ _ _ Hf) as (_ & _ & _ & _ & _ & HI). cbn in HI. split; [eapply HI; eauto|discriminate].
  - intros s' at' m' i' v j' X' b l Y D1 D2 Hij Hst. exists Y.
    pose proof (many_commits E s' at' _ _ _ _ _ D2) as Q. cbn in Q. subst b. cbn [orb].
    split; [eapply dg_many_more_fail; eauto|]. split; auto. discriminate.
Qed.

(** sequencing after a success *)
Lemma good_seq A B C (p : gram A) (k : A -> gram B) (g : gram C) (merge : A -> B -> C) Kp rem i j v X o :
  linked p k g merge false Kp -> i <= j <= len -> sentence E p (slice s i j) v ->
  (forall s' at' m' i', text [] i s' i' -> diag E s' at' A p m' i' (DSucc v (i' + (j - i)) X)) ->
  good (if Nat.ltb i j then Some 0%Z else rem) (k v) j o ->
  (sentence E p [] v -> bare_with E B (k v) -> bare_with E C g) ->
  good rem g i (on_rvalue (merge v) (r_after i j X o)).
Proof using HE HN HF same_refl same_app.
  intros ((L1 & L2 & L3) & L4 & L5 & L6 & L7) Hij Hv HX K Hba.
  assert (Hlt : forall i', Nat.ltb i' (i' + (j - i)) = Nat.ltb i j).
  { intros i'. destruct (Nat.ltb_spec i j); [apply Nat.ltb_lt|apply Nat.ltb_ge]; lia. }
  assert (Htx : forall s' i', text [] i s' i' -> text [] j s' (i' + (j - i))).
  { intros s' i' Ht. apply (text_slice [] i j) in Ht; [|lia]. cbn [app] in Ht. rewrite <- (app_nil_r (slice s i j)) in Ht.
    apply text_step in Ht. rewrite slice_len in Ht by lia. exact Ht. }
  assert (LC : forall b l Y, fails (k v) j b l Y -> fails g i (b || Nat.ltb i j) l (if b then Y else X ++ Y)).
  { intros b l Y (q & R1 & R2 & R3 & R4). exists q. split; [auto|]. split; [lia|]. split.
    - rewrite R3. destruct (Nat.ltb_spec j q), (Nat.ltb_spec i j), (Nat.ltb_spec i q); cbn; auto; lia.
    - intros s' at' m' i' Ht. specialize (R4 s' at' m' _ (Htx _ _ Ht)).
      destruct (L7 s' at' m' i' v _ X b _ Y (HX s' at' m' i' Ht) R4 ltac:(lia) ltac:(discriminate)) as (Y' & D & E1 & E2).
      rewrite Hlt in D. replace (i' + (q - i)) with (i' + (j - i) + (q - j)) by lia. destruct b; [rewrite <- (E1 eq_refl)|rewrite <- (E2 eq_refl)]; exact D. }
  destruct o as [w n Y|b l Y|n b l Y rs|e]; cbn [r_after on_rvalue good] in *.
  - destruct K as (K1 & K2 & K3). split; [lia|]. rewrite <- (slice_app s i j n) by lia. split; [apply L4; auto|].
    intros s' at' m' i' Ht. specialize (K3 s' at' m' _ (Htx _ _ Ht)).
    destruct (L6 s' at' m' i' v _ X w _ Y X (proj1 Ht) (HX s' at' m' i' Ht) K3 (same_refl _) ltac:(lia) ltac:(discriminate)) as (Y' & D & E1 & E2).
    replace (i' + (n - i)) with (i' + (j - i) + (n - j)) by lia.
    destruct (Nat.ltb_spec j n).
    + rewrite <- E1 by lia. exact D.
    + destruct E2 as [_ E2]; [lia|]. rewrite (E2 eq_refl) in D. exact D.
  - apply LC. exact K.
  - destruct K as ((Z & K1 & KZ) & K0 & K2). split.
    { eexists. split; [apply LC; exact K1|]. intros Hb Hn. apply orb_false_iff in Hb as [-> Hb]. apply Nat.ltb_ge in Hb.
      f_equal. apply KZ; auto. intros Q. apply Hn. apply Hba; auto. assert (j = i) as -> by lia. rewrite slice_nil in Hv. exact Hv. }
    split.
    + intros ->. destruct (Nat.ltb i j) eqn:Ej; [apply orb_true_r|]. rewrite K0; auto.
    + intros r' Hr. rewrite map_map in Hr. apply in_map_iff in Hr as (r & <- & Hr).
      destruct (K2 _ Hr) as [K3 K4]. split.
      * apply (nar_after p k g merge false Kp L1 L2 L3 L4 L6 L7 i j v X r); auto. discriminate.
      * intros -> o Ho. cbn in Ho. apply in_map_iff in Ho as (o' & <- & Ho). unfold op_after.
        destruct (op_con o') eqn:Eo; auto. cbn. destruct (Nat.ltb i j) eqn:Ej; auto. rewrite (K4 eq_refl _ Ho) in Eo. discriminate.
  - exact I.
Qed.

(** *** single tokens *)
Lemma sent_tok (w : list T) (g : gram T) t : lang E T g [inl t] t -> sentence E g [t] t.
Proof. auto. Qed.
Lemma tok_len i t : nth_error s i = Some t -> i + 1 <= len.
Proof. intros H. assert (i < len) by (apply nth_error_Some; congruence). lia. Qed.
Lemma begins_refl teq x rest : (forall a : T, In a x -> teq a a = true) -> begins_with teq x (x ++ rest) = true.
Proof.
  induction x as [|a x IH]; intros H; [reflexivity|]. cbn. rewrite (H a) by (left; auto). cbn. apply IH. intros; apply H; right; auto.
Qed.
Lemma text_stands teq x i s' i' : text [] i s' i' -> stands_at teq x s' i' = stands_at teq x s i.
Proof. intros [_ H]. unfold stands_at. rewrite H. reflexivity. Qed.
Lemma lit_len teq x i : i <= len -> starts_with teq x s i = true -> i + List.length x <= len.
Proof. intros Hi H. pose proof (starts_len s teq x i Hi H). lia. Qed.
Lemma after_closed A b X (r : offer A) : f_con r = true -> closed r -> f_after b X r = r.
Proof.
  intros H1 H2. destruct r as [c rk lf ops v p ex cn]. cbn in *. subst cn. unfold f_after. cbn. f_equal.
  rewrite <- (map_id ops) at 2. apply map_ext_in. intros o Ho. unfold op_after. rewrite (H2 o Ho). reflexivity.
Qed.
Lemma sent_dec {A} (g : gram A) i j v : lang E A g (map inl (slice s i j)) v -> sentence E g (slice s i j) v.
Proof. auto. Qed.
Lemma good_stop A (g : gram A) i v X : i <= len -> sentence E g [] v ->
  (forall s' at' m' i', text [] i s' i' -> diag E s' at' A g m' i' (DSucc v i' X)) ->
  forall rem, good rem g i (RSucc v i X).
Proof.
  intros Hi Hv H rem. cbn. rewrite slice_nil. split; [lia|]. split; [auto|]. intros s' at' m' i' Ht.
  rewrite Nat.sub_diag, Nat.add_0_r. auto.
Qed.
Lemma good_miss A (g : gram A) i X rem : i <= len ->
  (forall s' at' m' i', text [] i s' i' -> diag E s' at' A g m' i' (DFail false (at' i') X)) ->
  good rem g i (RFail false (at_ i) X).
Proof. intros Hi H. apply fails_here; auto. Qed.
Lemma good_offers A (g : gram A) i X n lf rs : i <= len ->
  (forall s' at' m' i', text [] i s' i' -> diag E s' at' A g m' i' (DFail false (at' i') X)) ->
  (forall r, In r rs -> nar g i r) ->
  good (Some lf) g i (ROffer n false (at_ i) X rs).
Proof.
  intros Hi H Hr. cbn. split; [exists X; split; [apply fails_here; auto|auto]|]. split; [discriminate|]. intros r H0. split; [auto|discriminate].
Qed.

Section Sat.
Variable test : T -> out bool.
Lemma sat_misses i : sat_miss test s i -> forall s' at' m' i', text [] i s' i' ->
  diag E s' at' T (GSatisfy test) m' i' (DFail false (at' i') []).
Proof.
  intros H s' at' m' i' Ht. pose proof (text_nth _ _ _ Ht) as Hn. destruct (nth_error s' i') as [t|] eqn:Et.
  - eapply dg_sat_no; eauto.
  - apply dg_sat_end; auto.
Qed.
Lemma sat_hits i t : sat_hit test s i t -> forall s' at' m' i', text [] i s' i' ->
  diag E s' at' T (GSatisfy test) m' i' (DSucc t (i' + 1) []).
Proof. intros [H1 H2] s' at' m' i' Ht. apply dg_sat; auto. rewrite (text_nth _ _ _ Ht). auto. Qed.
End Sat.
Section Sym.
Variables (teq : T -> T -> bool) (x : T) (lb : string).
Lemma sym_misses i : sym_miss teq x s i -> forall s' at' m' i', text [] i s' i' ->
  diag E s' at' T (GSym teq x lb) m' i' (DFail false (at' i') [lb]).
Proof. intros H s' at' m' i' Ht. apply dg_sym_no. rewrite (text_nth _ _ _ Ht). auto. Qed.
Lemma sym_hits i t : sym_hit teq x s i t -> forall s' at' m' i', text [] i s' i' ->
  diag E s' at' T (GSym teq x lb) m' i' (DSucc t (i' + 1) []).
Proof. intros [H1 H2] s' at' m' i' Ht. apply dg_sym; auto. rewrite (text_nth _ _ _ Ht). auto. Qed.
Lemma sym_insert rank lf i : put lb [inl x] [x] -> i <= len -> teq x x = true -> sym_miss teq x s i ->
  nar (GSym teq x lb) i (f_insert rank lf x i (at_ i) lb [lb]).
Proof using same_refl.
  intros Hp Hi Hx Hm. apply (nar_put T (GSym teq x lb) rank lf x i lb [inl x] [x] [lb]); auto; try discriminate.
  - constructor. auto.
  - apply sym_misses; auto.
  - intros s' at' m' i' [_ Ht]. apply dg_sym; auto. rewrite <- hd_skipn, Ht. reflexivity.
Qed.
Lemma sym_skip ins i j t : sym_miss teq x s i -> next_hit s (sym_hit teq x s) (sym_miss teq x s) i j t ->
  nar (GSym teq x lb) i (f_skip ins t (j + 1) (at_ i) (j - i) [lb] true).
Proof using same_refl.
  intros Hm (H1 & H2 & _). pose proof (tok_len _ _ (proj1 H2)).
  apply nar_skip; try lia.
  - rewrite (slice_one s j t (proj1 H2)). constructor. apply H2.
  - apply sym_misses; auto.
  - replace (j + 1 - j) with 1 by lia. apply sym_hits; auto.
Qed.
End Sym.
Section Lit.
Variables (teq : T -> T -> bool) (x : list T) (lb : string).
Lemma lit_misses i : lit_miss teq x s i -> forall s' at' m' i', text [] i s' i' ->
  diag E s' at' (list T) (GLiteral teq x lb) m' i' (DFail false (at' i') [lb]).
Proof. intros H s' at' m' i' Ht. apply dg_lit_no. rewrite (text_stands _ _ _ _ _ Ht). auto. Qed.
Lemma lit_hits i : lit_hit teq x s i tt -> forall s' at' m' i', text [] i s' i' ->
  diag E s' at' (list T) (GLiteral teq x lb) m' i' (DSucc x (i' + List.length x) []).
Proof. intros H s' at' m' i' Ht. apply dg_lit. rewrite (text_stands _ _ _ _ _ Ht). auto. Qed.
Lemma lit_insert rank lf i : put lb (map inl x) x -> i <= len -> x <> [] -> (forall a, In a x -> teq a a = true) -> lit_miss teq x s i ->
  nar (GLiteral teq x lb) i (f_insert rank lf x i (at_ i) lb [lb]).
Proof using same_refl.
  intros Hp Hi Hn Hx Hm. apply (nar_put (list T) (GLiteral teq x lb) rank lf x i lb (map inl x) x [lb]); auto.
  - constructor. apply forall2_refl_lit. auto.
  - apply lit_misses; auto.
  - intros s' at' m' i' [_ Ht]. apply dg_lit. unfold stands_at. rewrite Ht. apply begins_refl. auto.
Qed.
Lemma lit_skip ins i j : x <> [] -> lit_miss teq x s i -> next_hit s (lit_hit teq x s) (lit_miss teq x s) i j tt ->
  nar (GLiteral teq x lb) i (f_skip ins x (j + List.length x) (at_ i) (j - i) [lb] true).
Proof using same_refl.
  intros Hn Hm (H1 & H2 & _). assert (0 < List.length x) by (destruct x; [congruence|cbn; lia]).
  pose proof H2 as H3. unfold lit_hit in H3. change (stands_at teq x s j) with (starts_with teq x s j) in H3.
  pose proof (lit_len teq x j ltac:(lia) H3).
  apply nar_skip; try lia.
  - constructor. apply starts_slice; auto.
  - apply lit_misses; auto.
  - replace (j + List.length x - j) with (List.length x) by lia. apply lit_hits; auto.
Qed.
End Lit.
Section Re.
Context {A : Type}.
Variable re : list T -> nat -> option (nat * option A).
Hypothesis Hf : forward_re re.
Hypothesis Hs : sure_re re.
Hypothesis Hw : forall s pos e v, pos <= List.length s -> re s pos = Some (e, v) -> pos <= e <= List.length s.
Lemma re_same i s' i' : i <= len -> text [] i s' i' -> re s' i' = match re s i with Some (e, v) => Some (i' + (e - i), v) | None => None end.
Proof using Hf. intros Hi [T1 T2]. apply Hf; auto. Qed.
Lemma re_misses i : i <= len -> re_miss re s i -> forall s' at' m' i', text [] i s' i' ->
  diag E s' at' A (GRegexp re) m' i' (DFail false (at' i') []).
Proof using Hf.
  intros Hi H s' at' m' i' Ht. apply dg_re_no. intros (e & v & Q). rewrite (re_same i s' i' Hi Ht) in Q.
  destruct (re s i) as [[e1 v1]|] eqn:Er; [|discriminate]. injection Q as _ ->. apply H. exists e1, v. auto.
Qed.
Lemma re_hits i e v : i <= len -> re s i = Some (e, Some v) -> forall s' at' m' i', text [] i s' i' ->
  diag E s' at' A (GRegexp re) m' i' (DSucc v (i' + (e - i)) []).
Proof using Hf. intros Hi H s' at' m' i' Ht. apply dg_re. rewrite (re_same i s' i' Hi Ht), H. auto. Qed.
Lemma re_skip ins i j e v : i <= len -> re_miss re s i -> next_hit s (re_hit re s) (re_miss re s) i j (e, v) ->
  nar (GRegexp re) i (f_skip ins v e (at_ i) (j - i) [] true).
Proof using Hf Hs Hw same_refl.
  intros Hi Hm (H1 & H2 & _). unfold re_hit in H2. cbn in H2. pose proof (Hw _ _ _ _ (ltac:(lia) : j <= len) H2).
  assert (j <> e).
  { intros <-. destruct Hs as [Q|Q]; [exact (Q _ _ _ H2)|]. destruct (Q s i Hi) as (e1 & v1 & Q1). apply Hm. exists e1, v1. auto. }
  apply nar_skip; try lia.
  - apply la_re; auto; lia.
  - apply re_misses; auto.
  - apply re_hits; auto. lia.
Qed.
End Re.

Lemma nar_rename A B (p : gram A) (g : gram B) i (r : offer A) (r' : offer B) X :
  (forall w, sentence E p w (f_val r) -> sentence E g w (f_val r')) ->
  f_pos r' = f_pos r -> f_ops r' = map (op_rename X) (f_ops r) -> f_con r' = f_con r -> (f_con r = true -> f_exp r' = f_exp r) ->
  (forall t0 rest s' at' m' i', first E p t0 -> i' <= List.length s' -> skipn i' s' = t0 :: rest ->
     (forall j X, i' < j -> diag E s' at' A p m' i' (DSucc (f_val r) j X) -> diag E s' at' B g m' i' (DSucc (f_val r') j X)) /\
     (forall l X, diag E s' at' A p m' i' (DFail true l X) -> diag E s' at' B g m' i' (DFail true l X))) ->
  (forall s' at' m' i' Z, text [] i s' i' -> diag E s' at' A p m' i' (DFail false (at' i') Z) ->
     diag E s' at' B g m' i' (DFail false (at' i') X)) ->
  nar p i r -> nar g i r'.
Proof using same_refl.
  intros H1 H2 H3 H4 H5 H6 H7. apply (nar_wrap A B p g i r r' (op_rename X)); auto.
  - intros o. unfold op_rename. destruct (op_con o) eqn:Q; cbn; auto.
  - intros o Ho. unfold op_rename. rewrite Ho. auto.
  - intros o s' at' m' i' Z Ho Hc Ht D Sm. exists X. split; [eapply H7; eauto|]. unfold op_rename. rewrite Hc. apply same_refl.
Qed.
Lemma closed_rename A X (r : offer A) : closed r -> closed (f_rename X r).
Proof. intros H o Ho. cbn in Ho. apply in_map_iff in Ho as (o' & <- & Ho). unfold op_rename. rewrite (H _ Ho). auto. Qed.
Lemma good_any A (g : gram A) lf lf' i o : good (Some lf) g i o -> good (Some lf') g i o.
Proof.
  destruct o as [v j X|b l X|n b l X rs|e]; cbn; auto. intros (K1 & _ & K2). split; [auto|]. split; [discriminate|].
  intros r Hr. split; [apply K2; auto|discriminate].
Qed.

(** [recover_with] *)
Section With.
Context {A : Type} (p g : gram A).
Hypothesis Hs : forall w v, sentence E p w v -> sentence E g w v.
Hypothesis Hd : forall s' at' m' i' o, diag E s' at' A p m' i' o -> diag E s' at' A g m' i' o.
Hypothesis Hb : bare_with E A g.
Lemma with_keep rem i o : good rem p i o -> good rem g i o.
Proof using Hs Hd Hb.
  intros K. rewrite <- (on_rvalue_id o). apply (good_wrap A A p g (fun x => x) rem i o false false); auto; discriminate.
Qed.
Lemma with_put lf left x i lb u X X' l n rs : i <= len -> fails p i false l X -> (forall r, In r rs -> nar p i r) ->
  put lb [inr lb] u -> steady E p u x ->
  good (Some lf) g i (ROffer n false (at_ i) X' (f_insert (Some 0) left x i (at_ i) lb X :: rs)).
Proof using Hs Hd Hb same_refl.
  intros Hi [_ HX]%fails_false Hrs Hp (U1 & U2 & U3). cbn [good].
  split; [exists X; split; [apply fails_here; auto|intros _ Q; contradiction]|]. split; [discriminate|].
  intros r [<-|Hr]; (split; [|discriminate]).
  - apply (nar_put A g (Some 0) left x i lb [inr lb] u X); auto.
    intros s' at' m' i' [T1 T2]. apply Hd. eapply U3; eauto.
  - assert (K : good (Some lf) p i (ROffer n false (at_ i) X [r])).
    { apply good_offers; auto. intros r0 [<-|[]]. auto. }
    apply with_keep in K. cbn [good] in K. apply K. left. auto.
Qed.
End With.

Definition PP (A : Type) (g : gram A) (m : Z) (i : nat) (ins : Z) (rem : option Z) (o : rres A) : Prop :=
  forall K, ll1 E F g K -> fits g -> i <= len -> good rem g i o.
Definition PC (A B C : Type) (k : A -> gram B) (merge : A -> B -> C) (m ins : Z) (rs : list (offer A)) (x : list (offer C) + exn) : Prop :=
  forall (p : gram A) (g : gram C) i strict Kp K rs', linked p k g merge strict Kp ->
  (forall w v, sentence E p w v -> ll1 E F (k v) K /\ fits (k v)) -> x = inl rs' ->
  (forall r, In r rs -> nar p i r /\ (strict = true -> closed r)) ->
  (forall r, In r rs' -> nar g i r) /\ ((forall r, In r rs -> closed r) -> forall r, In r rs' -> closed r).

Lemma closed_then_repair A B C (merge : A -> B -> C) (r : offer A) (r' : offer B) : f_con r = true -> closed r -> closed (f_then_repair merge r r').
Proof.
  intros H1 H2 o Ho. cbn in Ho. apply in_app_or in Ho as [Ho|Ho]; [auto|]. apply in_map_iff in Ho as (o' & <- & Ho).
  unfold op_after. destruct (op_con o') eqn:Eo; auto.
Qed.
Lemma nar_sent A (p : gram A) i r : nar p i r -> (exists t, sentence E p t (f_val r)) /\ f_pos r <= len /\ f_con r = true.
Proof. intros (es & t & _ & H1 & _ & H2 & _ & H3 & _). split; [eauto|]. split; [lia|auto]. Qed.

Theorem rsem_good A (g : gram A) m i ins rem o :
  RecSpec.rsem E s at_ A g m i ins rem o -> PP A g m i ins rem o.
Proof using HE HN HF same_refl same_app.
  intros HH. induction HH using rsem_mut with (P0 := PC).
  all: match goal with
    | |- PP _ _ _ _ _ _ _ => intros K HL Hf Hi; unfold PP in *; pose proof (ev_here E _ _ _ Hf) as ((Hw & Hc & Hq) & (Hg & Hl) & (Ha & Hv) & He & Hr & Hit)
    | |- PC _ _ _ _ _ _ _ _ _ => unfold PC in *
    end.
  - (* pure *) apply good_stop; auto; [constructor|]. intros; constructor.
  - apply good_stop; auto; [constructor; auto|]. intros; constructor; auto.
  - exact I.
  - apply good_miss; auto. intros; constructor.
  - (* eof *) destruct He.
  - destruct He.
  - destruct He.
  - (* satisfy *) pose proof (tok_len _ _ (proj1 H)). cbn. split; [lia|]. split.
    + rewrite (slice_one s i t (proj1 H)). constructor. apply H.
    + replace (i + 1 - i) with 1 by lia. apply sat_hits; auto.
  - exact I.
  - apply good_miss; auto. apply sat_misses; auto.
  - apply good_offers; auto; [apply sat_misses; auto|]. intros r [<-|[]].
    destruct H0 as (H1 & H2 & _). pose proof (tok_len _ _ (proj1 H2)). apply nar_skip; try lia.
    + rewrite (slice_one s j t (proj1 H2)). constructor. apply H2.
    + apply sat_misses; auto.
    + replace (j + 1 - j) with 1 by lia. apply sat_hits; auto.
  - apply good_miss; auto. apply sat_misses; auto.
  - exact I.
  - (* sym *) pose proof (tok_len _ _ (proj1 H)). cbn. split; [lia|]. split.
    + rewrite (slice_one s i t (proj1 H)). constructor. apply H.
    + replace (i + 1 - i) with 1 by lia. apply sym_hits; auto.
  - apply good_miss; auto. apply sym_misses; auto.
  - apply good_offers; auto; [apply sym_misses; auto|]. intros r Hin. apply in_app_or in Hin as [Hin|[<-|[]]].
    + unfold insertions in Hin. destruct (Z.eqb left 0); [destruct Hin|]. destruct Hin as [<-|[]].
      apply sym_insert; auto; [apply Hv|apply Hw].
    + apply sym_skip; auto.
  - apply good_offers; auto; [apply sym_misses; auto|]. intros r Hin.
    unfold insertions in Hin. destruct (Z.eqb left 0); [destruct Hin|]. destruct Hin as [<-|[]].
    apply sym_insert; auto; [apply Hv|apply Hw].
  - (* literal *) pose proof H as H1. unfold lit_hit in H1. change (stands_at teq x s i) with (starts_with teq x s i) in H1.
    pose proof (lit_len teq x i Hi H1). cbn. split; [lia|]. split.
    + constructor. apply starts_slice; auto.
    + replace (i + List.length x - i) with (List.length x) by lia. apply lit_hits; auto.
  - apply good_miss; auto. apply lit_misses; auto.
  - destruct Hw as [[Hw1 Hw2] _]. apply good_offers; auto; [apply lit_misses; auto|]. intros r Hin. apply in_app_or in Hin as [Hin|[<-|[]]].
    + unfold insertions in Hin. destruct (Z.eqb left 0); [destruct Hin|]. destruct Hin as [<-|[]].
      apply lit_insert; auto. apply Hv.
    + apply lit_skip; auto.
  - destruct Hw as [[Hw1 Hw2] _]. apply good_offers; auto; [apply lit_misses; auto|]. intros r Hin.
    unfold insertions in Hin. destruct (Z.eqb left 0); [destruct Hin|]. destruct Hin as [<-|[]].
    apply lit_insert; auto. apply Hv.
  - (* regexp *) unfold re_hit in H. cbn in H. destruct Hw as [Hw _]. pose proof (Hw _ _ _ _ Hi H). cbn [good].
    split; [lia|]. split; [apply la_re; auto|]. apply re_hits; auto. apply Hr.
  - apply good_miss; auto. apply re_misses; auto. apply Hr.
  - apply good_offers; auto; [apply re_misses; auto; apply Hr|]. intros r [<-|[]].
    apply re_skip; auto; [apply Hr|apply Hr|apply Hw].
  - apply good_miss; auto. apply re_misses; auto. apply Hr.
  - (* fmap *) destruct (IHHH K HL (ev_fmap _ _ _ _ _ _ Hf) Hi) as (K1 & K2 & K3). cbn. split; [auto|].
    split; [econstructor; eauto|]. intros. eapply dg_fmap; eauto.
  - exact I.
  - pose proof (IHHH K HL (ev_fmap _ _ _ _ _ _ Hf) Hi) as K1. eapply fails_map; [|exact K1]. intros. apply dg_fmap_fail. auto.
  - destruct (IHHH K HL (ev_fmap _ _ _ _ _ _ Hf) Hi) as ((Z & K1 & KZ) & K0 & K2). cbn [good].
    split; [exists Z; split; [eapply fails_map; [|exact K1]; intros; apply dg_fmap_fail; auto|intros Hb1 Hb2; apply KZ; auto; intros Q; apply Hb2; constructor; exact Q]|]. split; [auto|].
    clear K1 HH IHHH. revert rs' H. induction rs as [|r rs IHrs]; intros rs' H; cbn [f_map] in H.
    { injection H as <-. intros r []. }
    destruct (f (f_val r)) as [v| |] eqn:Ef; try discriminate.
    destruct (f_map f rs) as [rs1| |] eqn:Er; try discriminate. injection H as <-.
    intros r' [<-|Hr']; [|apply (IHrs (fun r0 H0 => K2 r0 (or_intror H0)) _ eq_refl); auto].
    destruct (K2 r (or_introl eq_refl)) as [K3 K4]. split; [|exact K4].
    apply (nar_wrap A B p (GFmap p f) i r (f_with r v) (fun o => o)); cbn [f_with f_val f_pos f_ops f_exp f_con]; rewrite ?map_id; auto.
    + intros w Hs. econstructor; eauto.
    + intros t0 rest s' at' m' i' _ _ _. split; intros; [eapply dg_fmap; eauto|apply dg_fmap_fail; auto].
    + intros o s' at' m' i' X0 _ _ _ D Sm. exists X0. split; auto. apply dg_fmap_fail. auto.
  - exact I.
  - exact I.
  - (* alt *) cbn [ll1] in HL. destruct HL as (L1 & L2 & L3 & L4). apply good_rem. rewrite <- (on_rvalue_id o).
    eapply (good_wrap A A p (GAlt p q) (fun x => x) None i o false true); auto.
    + intros. apply la_alt_l; auto.
    + intros. apply dg_alt_l; auto.
    + intros s' at' m' i' b l X _ Hb D. rewrite (Hb eq_refl) in *. apply dg_alt_fail. auto.
    + discriminate.
    + discriminate.
    + eapply IHHH; eauto using ev_alt_l.
  - cbn [ll1] in HL. destruct HL as (L1 & L2 & L3 & L4). apply good_rem.
    pose proof (IHHH1 K L1 (ev_alt_l _ _ _ _ _ Hf) Hi) as [E1 K1]%fails_false.
    pose proof (IHHH2 K L2 (ev_alt_r _ _ _ _ _ Hf) Hi) as K2.
    assert (HM : forall s' at' m' i', sit q i s' i' -> exists l X, diag E s' at' A p m' i' (DFail false l X)).
    { intros s' at' m' i' [Ht|(t0 & rest & Q1 & Q2 & Q3)]; [eauto|].
      apply any_misses; auto; [eapply ev_alt_l; eauto|]. rewrite <- hd_skipn, Q3. cbn. intros Q4.
      apply (L4 (Some t0)); [exact Q4|left; exact Q1]. }
    destruct o as [v k Y|b l0 Y|n b l0 Y rs|e]; cbn [r_else]; [| | |exact I].
    + destruct K2 as (M1 & M2 & M3). cbn [good]. split; [auto|]. split; [apply la_alt_r; auto|].
      intros s' at' m' i' Ht. pose proof (dg_alt_r E s' at' A p q m' i' _ _ _ (K1 s' at' m' i' Ht) (M3 s' at' m' i' Ht)) as D.
      cbn [d_else] in D. replace (Nat.ltb i k) with (Nat.ltb i' (i' + (k - i))); auto.
      destruct (Nat.ltb_spec i k); [apply Nat.ltb_lt|apply Nat.ltb_ge]; lia.
    + rewrite <- (on_rvalue_id (RFail b l0 Y)). eapply (good_wrap A A q (GAlt p q) (fun x => x) None i _ true true); auto.
      * intros. apply la_alt_r; auto.
      * intros s' at' m' i' v j Z Hs Hm D. destruct (HM s' at' m' i' Hs) as (l1 & X1 & D1).
        pose proof (dg_alt_r E s' at' A p q m' i' _ _ _ D1 D) as D2. cbn [d_else] in D2.
        rewrite (proj2 (Nat.ltb_lt _ _) (Hm eq_refl)) in D2. exact D2.
      * intros s' at' m' i' b' l' Z Hs Hb D. rewrite (Hb eq_refl) in *. destruct (HM s' at' m' i' Hs) as (l1 & X1 & D1).
        exact (dg_alt_r E s' at' A p q m' i' _ _ _ D1 D).
      * discriminate.
      * discriminate.
    + rewrite <- (on_rvalue_id (ROffer n b l0 Y rs)). eapply (good_wrap A A q (GAlt p q) (fun x => x) None i _ true true); auto.
      * intros. apply la_alt_r; auto.
      * intros s' at' m' i' v j Z Hs Hm D. destruct (HM s' at' m' i' Hs) as (l1 & X1 & D1).
        pose proof (dg_alt_r E s' at' A p q m' i' _ _ _ D1 D) as D2. cbn [d_else] in D2.
        rewrite (proj2 (Nat.ltb_lt _ _) (Hm eq_refl)) in D2. exact D2.
      * intros s' at' m' i' b' l' Z Hs Hb D. rewrite (Hb eq_refl) in *. destruct (HM s' at' m' i' Hs) as (l1 & X1 & D1).
        exact (dg_alt_r E s' at' A p q m' i' _ _ _ D1 D).
      * discriminate.
      * discriminate.
  - cbn [ll1] in HL. destruct HL as (L1 & L2 & L3 & L4).
    pose proof (IHHH1 K L1 (ev_alt_l _ _ _ _ _ Hf) Hi) as [E1 K1]%fails_false.
    pose proof (IHHH2 K L2 (ev_alt_r _ _ _ _ _ Hf) Hi) as [E2 K2]%fails_false.
    subst l. apply good_miss; auto. intros s' at' m' i' Ht.
    exact (dg_alt_r E s' at' A p q m' i' _ _ _ (K1 s' at' m' i' Ht) (K2 s' at' m' i' Ht)).
  - (* alt, recovering *) cbn [ll1] in HL. destruct HL as (L1 & L2 & L3 & L4).
    pose proof (ev_alt_l _ _ _ _ _ Hf) as Fp. pose proof (ev_alt_r _ _ _ _ _ Hf) as Fq.
    pose proof (IHHH1 K L1 Fp Hi) as G1. pose proof (IHHH2 K L2 Fq Hi) as G2.
    pose proof (IHHH3 K L1 Fp Hi) as G3. pose proof (IHHH4 K L2 Fq Hi) as G4. cbn [good] in G1, G2.
    pose proof (fails_false _ _ _ _ _ G1) as [E1 K1]. pose proof (fails_false _ _ _ _ _ G2) as [E2 K2].
    assert (HD : forall s' at' m' i', text [] i s' i' -> diag E s' at' A (GAlt p q) m' i' (DFail false (at' i') (X ++ Y))).
    { intros s' at' m' i' Ht. exact (dg_alt_r E s' at' A p q m' i' _ _ _ (K1 s' at' m' i' Ht) (K2 s' at' m' i' Ht)). }
    assert (N1 : forall r, nar p i r -> nar (GAlt p q) i (f_rename (X ++ Y) r)).
    { intros r. apply (nar_rename A A p (GAlt p q) i r (f_rename (X ++ Y) r) (X ++ Y)); auto.
      - intros. apply la_alt_l; auto.
      - intros Q. cbn. rewrite Q. auto.
      - intros t0 rest s' at' m' i' _ _ _. split; intros; [apply dg_alt_l; auto|apply dg_alt_fail; auto]. }
    assert (N2 : forall r, nar q i r -> nar (GAlt p q) i (f_rename (X ++ Y) r)).
    { intros r. apply (nar_rename A A q (GAlt p q) i r (f_rename (X ++ Y) r) (X ++ Y)); auto.
      - intros. apply la_alt_r; auto.
      - intros Q. cbn. rewrite Q. auto.
      - intros t0 rest s' at' m' i' Q1 Q2 Q3.
        destruct (any_misses s' at' A p m' i' Fp Q2 L3) as (l1 & X1 & D1).
        { rewrite <- hd_skipn, Q3. cbn. intros Q4. apply (L4 (Some t0)); [exact Q4|left; exact Q1]. }
        split; intros.
        + match goal with H : diag E s' at' A q m' i' _ |- _ => pose proof (dg_alt_r E s' at' A p q m' i' _ _ _ D1 H) as D2 end. cbn [d_else] in D2.
          rewrite (proj2 (Nat.ltb_lt _ _)) in D2 by auto. exact D2.
        + match goal with H : diag E s' at' A q m' i' _ |- _ => exact (dg_alt_r E s' at' A p q m' i' _ _ _ D1 H) end. }
    assert (R1 : forall n l1 Z rs, l1 = at_ i -> (forall r, In r rs -> nar p i r \/ nar q i r) ->
      good (Some left) (GAlt p q) i (relabelled (X ++ Y) (ROffer n false l1 Z rs))).
    { intros n l1 Z rs -> Hrs. cbn [relabelled]. apply good_offers; auto. intros r' Hr'. apply in_map_iff in Hr' as (r & <- & Hr').
      destruct (Hrs r Hr'); auto. }
    assert (F0 : good (Some left) (GAlt p q) i (RFail false l (X ++ Y))) by (subst l; apply good_miss; auto).
    assert (O1 : forall n b l1 Z rs, o1 = ROffer n b l1 Z rs -> b = false /\ l1 = at_ i /\ forall r, In r rs -> nar p i r).
    { intros n b l1 Z rs ->. destruct G3 as ((Z' & M1 & _) & _ & M2). destruct (fails_unique _ _ _ _ _ _ _ _ _ Fp Hi M1 G1) as [-> _].
      apply fails_false in M1 as [M1 _]. split; [auto|]. split; [auto|]. intros r Hr'. apply M2; auto. }
    assert (O2 : forall n b l1 Z rs, o2 = ROffer n b l1 Z rs -> b = false /\ l1 = at_ i /\ forall r, In r rs -> nar q i r).
    { intros n b l1 Z rs ->. destruct G4 as ((Z' & M1 & _) & _ & M2). destruct (fails_unique _ _ _ _ _ _ _ _ _ Fq Hi M1 G2) as [-> _].
      apply fails_false in M1 as [M1 _]. split; [auto|]. split; [auto|]. intros r Hr'. apply M2; auto. }
    clear G3 G4 HH1 HH2 HH3 HH4 IHHH1 IHHH2 IHHH3 IHHH4.
    unfold r_choice. destruct o1 as [v1 j1 X1|b1 l1 X1|n1 b1 l1 X1 rs1|e1]; [| | |exact I];
      destruct o2 as [v2 j2 X2|b2 l2 X2|n2 b2 l2 X2 rs2|e2]; try exact I; auto;
      try (destruct (O1 _ _ _ _ _ eq_refl) as (-> & -> & M1)); try (destruct (O2 _ _ _ _ _ eq_refl) as (-> & -> & M2));
      apply R1; auto.
    intros r Hr'. apply in_app_or in Hr' as [Hr'|Hr']; [auto|]. apply filter_In in Hr' as [Hr' _]. auto.
  - exact I.
  - (* bind *) pose proof (linked_bind _ _ _ _ _ Hf HL) as LK. cbn [ll1] in HL. destruct HL as [L1 L2].
    pose proof (IHHH1 _ L1 (ev_bind_l _ _ _ _ _ _ Hf) Hi) as (K1 & K2 & K3).
    pose proof (IHHH2 K (L2 _ _ K2) (ev_bind_r _ _ _ _ _ _ v Hf) (proj2 K1)) as K4.
    rewrite <- (on_rvalue_id (r_after i j X o)). eapply (good_seq A B B p f (GBind p f) (fun _ w => w)); eauto.
    + destruct (Nat.ltb i j); auto. eapply good_any; eauto.
    + intros; eapply bw_bind_r; eauto.
  - cbn [ll1] in HL. destruct HL as [L1 L2]. pose proof (IHHH _ L1 (ev_bind_l _ _ _ _ _ _ Hf) Hi) as K1.
    eapply fails_map; [|exact K1]. intros. apply dg_bind_fail. auto.
  - pose proof (linked_bind _ _ _ _ _ Hf HL) as LK. cbn [ll1] in HL. destruct HL as [L1 L2].
    pose proof (IHHH _ L1 (ev_bind_l _ _ _ _ _ _ Hf) Hi) as ((Z & K1 & KZ) & K0 & K2).
    destruct (IHHH0 p (GBind p f) i false _ K rs' LK) as [K3 K4]; auto.
    + intros w v Hs. split; [eapply L2; eauto|apply (ev_bind_r _ _ _ _ _ _ v Hf)].
    + intros r Hr'. split; [apply K2; auto|discriminate].
    + cbn [good]. split; [exists Z; split; [eapply fails_map; [|exact K1]; intros; apply dg_bind_fail; auto|intros Hb1 Hb2; apply KZ; auto; intros Q; apply Hb2; apply bw_bind_l; exact Q]|]. split; [auto|].
      intros r Hr'. split; [auto|]. intros Q. apply K4; auto. intros r0 Hr0. apply K2; auto.
  - exact I.
  - exact I.
  - (* seq *) pose proof (linked_seq _ _ _ _ _ _ _ Hf HL) as LK. cbn [ll1] in HL. destruct HL as [L1 L2].
    pose proof (IHHH1 _ L1 (ev_seq_l _ _ _ _ _ _ _ _ Hf) Hi) as (K1 & K2 & K3).
    pose proof (IHHH2 K L2 (ev_seq_r _ _ _ _ _ _ _ _ Hf) (proj2 K1)) as K4.
    eapply (good_seq A B C p (fun _ => q) (GSeq p q merge) merge); eauto.
    + destruct (Nat.ltb i j); auto. eapply good_any; eauto.
    + intros; eapply bw_seq_r; eauto.
  - cbn [ll1] in HL. destruct HL as [L1 L2]. pose proof (IHHH _ L1 (ev_seq_l _ _ _ _ _ _ _ _ Hf) Hi) as K1.
    eapply fails_map; [|exact K1]. intros. apply dg_seq_fail. auto.
  - pose proof (linked_seq _ _ _ _ _ _ _ Hf HL) as LK. cbn [ll1] in HL. destruct HL as [L1 L2].
    pose proof (IHHH _ L1 (ev_seq_l _ _ _ _ _ _ _ _ Hf) Hi) as ((Z & K1 & KZ) & K0 & K2).
    destruct (IHHH0 p (GSeq p q merge) i false _ K rs' LK) as [K3 K4]; auto.
    + intros w v Hs. split; [auto|apply (ev_seq_r _ _ _ _ _ _ _ _ Hf)].
    + intros r Hr'. split; [apply K2; auto|discriminate].
    + cbn [good]. split; [exists Z; split; [eapply fails_map; [|exact K1]; intros; apply dg_seq_fail; auto|intros Hb1 Hb2; apply KZ; auto; intros Q; apply Hb2; apply bw_seq_l; exact Q]|]. split; [auto|].
      intros r Hr'. split; [auto|]. intros Q. apply K4; auto. intros r0 Hr0. apply K2; auto.
  - exact I.
  - exact I.
  - (* maybe *) cbn [ll1] in HL. destruct HL as (L1 & L2 & L3). apply good_rem.
    eapply (good_wrap A _ p (GMaybe p) Some None i o false true); auto.
    + intros. constructor; auto.
    + intros. apply dg_maybe; auto.
    + intros s' at' m' i' b l X _ Hb D. rewrite (Hb eq_refl) in *. apply dg_maybe_fail. auto.
    + discriminate.
    + discriminate.
    + eapply IHHH; eauto using ev_maybe.
  - cbn [ll1] in HL. destruct HL as (L1 & L2 & L3).
    pose proof (IHHH K L1 (ev_maybe _ _ _ _ Hf) Hi) as [E1 K1]%fails_false.
    apply good_stop; auto; [constructor|]. intros. eapply dg_maybe_none; eauto.
  - (* many *) pose proof (linked_many _ _ _ Hf HL) as LK. pose proof HL as HL0. cbn [ll1] in HL. destruct HL as (L1 & L2 & L3).
    pose proof (IHHH1 _ L1 (ev_many _ _ _ _ Hf) Hi) as (K1 & K2 & K3).
    pose proof (IHHH2 K HL0 Hf (proj2 K1)) as K4. apply good_rem.
    assert (Htx : forall s' i', text [] i s' i' -> text [] j s' (i' + (j - i))).
    { intros s' i' Ht. apply (text_slice [] i j) in Ht; [|lia]. cbn [app] in Ht. rewrite <- (app_nil_r (slice s i j)) in Ht.
      apply text_step in Ht. rewrite slice_len in Ht by lia. exact Ht. }
    assert (LQ : forall l Y, fails (GMany p) j true l Y -> fails (GMany p) i true l Y).
    { intros l Y (n & R1 & R2 & R3 & R4). exists n. split; [auto|]. split; [lia|].
      split; [symmetry; apply Nat.ltb_lt; lia|]. intros s' at' m' i' Ht. specialize (R4 s' at' m' _ (Htx _ _ Ht)).
      replace (i' + (n - i)) with (i' + (j - i) + (n - j)) by lia. apply (dg_many_more_fail E s' at' A p m' i' v (i' + (j - i)) X); auto; lia. }
    destruct o as [vs k Y|b l Y|n b l Y rs|e]; cbn [on_rvalue good] in *; auto.
    + destruct K4 as (M1 & M2 & M3). split; [lia|]. rewrite <- (slice_app s i j k) by lia.
      split; [apply se_many; auto|]. intros s' at' m' i' Ht. specialize (M3 s' at' m' _ (Htx _ _ Ht)).
      replace (i' + (k - i)) with (i' + (j - i) + (k - j)) by lia. apply (dg_many_more E s' at' A p m' i' v (i' + (j - i)) X); auto; lia.
    + assert (b = true) as ->; [|apply LQ; exact K4]. destruct K4 as (n & _ & _ & _ & R4).
      exact (many_commits E s at_ _ _ _ _ _ (R4 s at_ 0%Z j (text_self j (proj2 K1)))).
    + destruct K4 as ((Z & M1 & _) & M0 & M2). rewrite (M0 eq_refl) in *. split; [exists Z; split; [apply LQ; exact M1|discriminate]|]. split; [auto|].
      intros r' Hr'. apply in_map_iff in Hr' as (r & <- & Hr').
      destruct (M2 r Hr') as [N1 N2]. specialize (N2 eq_refl). split; [|intros _; exact N2].
      destruct (nar_sent _ _ _ _ N1) as (_ & _ & N3). rewrite <- (after_closed _ (Nat.ltb i j) X r N3 N2) at 1.
      destruct LK as ((P1 & P2 & P3) & P4 & P5 & P6 & P7).
      apply (nar_after p (fun _ => GMany p) (GMany p) cons true _ P1 P2 P3 P4 P6 P7 i j v X r); auto.
  - exact I.
  - cbn [ll1] in HL. destruct HL as (L1 & L2 & L3).
    pose proof (IHHH _ L1 (ev_many _ _ _ _ Hf) Hi) as [E1 K1]%fails_false.
    apply good_stop; auto; [constructor|]. intros. eapply dg_many_stop; eauto.
  - cbn [ll1] in HL. destruct HL as (L1 & L2 & L3).
    pose proof (IHHH _ L1 (ev_many _ _ _ _ Hf) Hi) as K1. eapply fails_map; [|exact K1]. intros. apply dg_many_fail. auto.
  - pose proof (linked_many _ _ _ Hf HL) as LK. pose proof HL as HL0. cbn [ll1] in HL. destruct HL as (L1 & L2 & L3).
    pose proof (IHHH _ L1 (ev_many _ _ _ _ Hf) Hi) as ((Z & K1 & KZ) & K0 & K2). rewrite (K0 eq_refl) in *.
    destruct (IHHH0 p (GMany p) i true _ K rs' LK) as [K3 K4]; auto.
    + intros r Hr'. split; [apply K2; auto|]. intros _. apply K2; auto.
    + cbn [good]. split; [exists Z; split; [eapply fails_map; [|exact K1]; intros; apply dg_many_fail; auto|discriminate]|]. split; [auto|].
      intros r Hr'. split; [auto|]. intros Q. apply K4; auto. intros r0 Hr0. apply K2; auto.
  - exact I.
  - exact I.
  - (* attempt *) destruct Ha. exact I.
  - destruct Ha. exact I.
  - (* label *) cbn [ll1] in HL. pose proof (IHHH K HL (ev_label _ _ _ _ _ Hf) Hi) as K1.
    assert (FL : forall b l Y, fails p i b l Y -> fails (GLabel p x) i b l (if b then Y else [x])).
    { intros b l Y Q. eapply fails_map; [|exact Q]. intros s' at' m' i' l' _ D.
      pose proof (dg_label E s' at' A p x m' i' _ D) as D'. destruct b; exact D'. }
    destruct o as [v k Y|b l Y|n b l Y rs|e]; cbn [r_label good] in *; auto.
    + destruct K1 as (M1 & M2 & M3). split; [auto|]. split; [constructor; auto|]. intros s' at' m' i' Ht.
      pose proof (dg_label E s' at' A p x m' i' _ (M3 s' at' m' i' Ht)) as D. cbn [d_label] in D.
      replace (Nat.ltb i k) with (Nat.ltb i' (i' + (k - i))); auto.
      destruct (Nat.ltb_spec i k); [apply Nat.ltb_lt|apply Nat.ltb_ge]; lia.
    + destruct K1 as ((Z & M1 & _) & M0 & M2). split; [eexists; split; [apply FL; exact M1|intros ->; reflexivity]|]. split; [auto|]. intros r' Hr'. apply in_map_iff in Hr' as (r & <- & Hr').
      destruct (M2 r Hr') as [N1 N2]. split; [|intros; apply closed_rename; auto].
      revert N1. apply (nar_rename A A p (GLabel p x) i r (f_rename [x] r) [x]); auto.
      * intros. constructor; auto.
      * intros Q. cbn. rewrite Q. auto.
      * intros t0 rest s' at' m' i' _ _ _. split.
        -- intros j0 X0 Hlt D. pose proof (dg_label E s' at' A p x m' i' _ D) as D'. cbn [d_label] in D'.
           rewrite (proj2 (Nat.ltb_lt _ _) Hlt) in D'. exact D'.
        -- intros l0 X0 D. exact (dg_label E s' at' A p x m' i' _ D).
      * intros s' at' m' i' Z1 _ D. exact (dg_label E s' at' A p x m' i' _ D).
  - (* recover *) cbn [ll1] in HL. pose proof (IHHH K HL (ev_recover _ _ _ _ Hf) Hi) as K1.
    assert (K2 : good rem (GRecover p) i (on_rvalue (fun x => x) o)).
    { apply (good_wrap A A p (GRecover p) (fun x => x) rem i o false false); auto; try discriminate.
      - intros. constructor; auto.
      - intros. apply dg_recover; auto.
      - intros. apply dg_recover; auto.
      - intros _ Q. constructor. exact Q. }
    rewrite on_rvalue_id in K2. destruct o as [v k Y|b l Y|n b l Y rs|e]; cbn [r_ranked good] in *; auto.
    destruct K2 as (M1 & M0 & M2). split; auto. split; auto. intros r' Hr'. apply in_map_iff in Hr' as (r & <- & Hr').
    exact (M2 r Hr').
  - (* recover_with *) cbn [ll1] in HL. apply (with_keep p); auto; try (intros; constructor; auto; fail). eapply IHHH; eauto using ev_with.
  - cbn [ll1] in HL. apply (with_keep p); auto; try (intros; constructor; auto; fail). eapply IHHH; eauto using ev_with.
  - cbn [ll1] in HL. destruct Hv as [_ [Hv Hp]]. pose proof (IHHH K HL (ev_with _ _ _ _ _ _ Hf) Hi) as K1. cbn [good] in K1.
    apply (with_put p) with (u := fill lb) (l := l); auto; try (intros; constructor; auto; fail). intros r [].
  - cbn [ll1] in HL. destruct Hv as [Hsw [Hv Hp]]. destruct (IHHH K HL (ev_with _ _ _ _ _ _ Hf) Hi) as ((Z & K1 & KZ) & _ & K2).
    rewrite (KZ eq_refl Hsw) in K1. apply (with_put p) with (u := fill lb) (l := l); auto; try (intros; constructor; auto; fail). intros r Hr'. apply K2; auto.
  - cbn [ll1] in HL. apply (with_keep p); auto; try (intros; constructor; auto; fail). eapply IHHH; eauto using ev_withfn.
  - cbn [ll1] in HL. apply (with_keep p); auto; try (intros; constructor; auto; fail). eapply IHHH; eauto using ev_withfn.
  - cbn [ll1] in HL. destruct Hv as [_ Hv]. destruct (Hv _ _ _ H0) as [Hv1 Hp]. pose proof (IHHH K HL (ev_withfn _ _ _ _ _ _ Hf) Hi) as K1. cbn [good] in K1.
    apply (with_put p) with (u := fill (lab x)) (l := l); auto; try (intros; constructor; auto; fail). intros r [].
  - cbn [ll1] in HL. destruct Hv as [Hsw Hv]. destruct (Hv _ _ _ H0) as [Hv1 Hp]. destruct (IHHH K HL (ev_withfn _ _ _ _ _ _ Hf) Hi) as ((Z & K1 & KZ) & _ & K2).
    rewrite (KZ eq_refl Hsw) in K1. apply (with_put p) with (u := fill (lab x)) (l := l); auto; try (intros; constructor; auto; fail). intros r Hr'. apply K2; auto.
  - exact I.
  - (* layout *) destruct Hl as [Hl _]. destruct Hl. exact I.
  - destruct Hl as [Hl _]. destruct Hl. exact I.
  - destruct Hl as [Hl _]. destruct Hl. exact I.
  - destruct Hl as [Hl _]. destruct Hl. exact I.
  - destruct Hl as [Hl _]. destruct Hl. exact I.
  - (* delay *) pose proof (IHHH _ (HF d) (ev_delay _ _ _ Hf) Hi) as K1. rewrite <- (on_rvalue_id o).
    apply (good_wrap (V d) (V d) (E d) (GDelay d) (fun x => x) rem i o false false); auto; try discriminate.
    + intros. constructor; auto.
    + intros. apply dg_delay; auto.
    + intros. apply dg_delay; auto.
    + intros _ Q. constructor. exact Q.
  - exact I.
  - (* continuations *) intros p g i strict Kp K rs' LK HK Hx Hn. injection Hx as <-. split; intros; contradiction.
  - intros p g i strict Kp K rs0 LK HK Hx Hn. injection Hx as <-.
    destruct (Hn r (or_introl eq_refl)) as [N1 N2]. destruct (nar_sent _ _ _ _ N1) as ((t & N3) & N4 & N5).
    destruct (HK t (f_val r) N3) as [W1 W2]. pose proof (IHHH K W1 W2 N4) as (K1 & K2 & K3).
    destruct (IHHH0 p g i strict Kp K rs' LK HK eq_refl (fun r0 h => Hn r0 (or_intror h))) as [L1 L2]. split.
    + intros r0 [<-|Hr]; auto. destruct LK as ((P1 & P2 & P3) & P4 & P5 & P6 & P7).
      apply (nar_then_succ p k g merge strict Kp P1 P2 P3 P4 P5 P6 i r); auto.
    + intros Hcl r0 [<-|Hr]; [exact (Hcl r (or_introl eq_refl))|]. apply L2; auto. intros; apply Hcl; right; auto.
  - intros p g i strict Kp K rs0 LK HK Hx Hn. injection Hx as <-.
    destruct (Hn r (or_introl eq_refl)) as [N1 N2]. destruct (nar_sent _ _ _ _ N1) as ((t & N3) & N4 & N5).
    destruct (HK t (f_val r) N3) as [W1 W2]. pose proof (IHHH K W1 W2 N4) as (K1 & K0 & K2).
    destruct (IHHH0 p g i strict Kp K rs' LK HK eq_refl (fun r0 h => Hn r0 (or_intror h))) as [L1 L2]. split.
    + intros r0 Hr. apply in_app_or in Hr as [Hr|Hr]; auto. apply in_map_iff in Hr as (r1 & <- & Hr).
      destruct LK as ((P1 & P2 & P3) & P4 & P5 & P6 & P7).
      apply (nar_then_repair p k g merge strict Kp P1 P2 P3 P4 P5 P6 P7 i r); auto. apply K2; auto.
    + intros Hcl r0 Hr. apply in_app_or in Hr as [Hr|Hr]; [|apply L2; auto; intros; apply Hcl; right; auto].
      apply in_map_iff in Hr as (r1 & <- & Hr). apply closed_then_repair; auto. apply Hcl. left. auto.
  - intros p g i strict Kp K rs0 LK HK Hx Hn. injection Hx as <-.
    destruct (IHHH0 p g i strict Kp K rs' LK HK eq_refl (fun r0 h => Hn r0 (or_intror h))) as [L1 L2]. split; auto.
    intros Hcl. apply L2. intros; apply Hcl; right; auto.
  - intros p g i strict Kp K rs0 LK HK Hx. discriminate.
  - intros p g i strict Kp K rs0 LK HK Hx. discriminate.
Qed.

(** *** the whole input *)
Definition rsem_view {C} (G : gram C) (m : Z) (i : nat) (ins : Z) (rem : option Z) (o : rres C) : Prop :=
  (match G in Grammar.gram _ _ C return rres C -> Prop with
  | GSeq p q merge => fun o =>
      (exists v j X o', RecSpec.rsem E s at_ _ p m i ins rem (RSucc v j X) /\
         RecSpec.rsem E s at_ _ q m j ins (if Nat.ltb i j then Some ins else rem) o' /\
         o = on_rvalue (merge v) (r_after i j X o')) \/
      (exists b l X, o = RFail b l X) \/
      (exists n b l X rs rs', RecSpec.rsem E s at_ _ p m i ins rem (ROffer n b l X rs) /\
         rconts E s at_ _ _ _ (fun _ => q) merge m ins rs (inl rs') /\ o = ROffer n b l X rs') \/
      (exists e, o = RExn e)
  | GEof => fun o =>
      (i = len /\ o = RSucc tt i []) \/ (exists b l X, o = RFail b l X) \/
      (i <> len /\ o = ROffer None false (at_ i) ["end of file"%string]
         [f_skip ins tt len (at_ i) (len - i) ["end of file"%string] false])
  | _ => fun _ => True
  end) o.
Lemma rsem_inv C (G : gram C) m i ins rem o : RecSpec.rsem E s at_ C G m i ins rem o -> rsem_view G m i ins rem o.
Proof. intros H. destruct H; try exact I; unfold rsem_view; try solve [eauto 11]; right; right; left; eauto 11. Qed.
Definition rconts_view {A B C} (k : A -> gram B) (merge : A -> B -> C) m ins (rs : list (offer A)) (x : list (offer C) + exn) : Prop :=
  match rs, x with
  | [], inl rs' => rs' = []
  | r :: rs, inl rs' => exists o rs1 rs2, rs' = rs1 ++ rs2 /\ rconts E s at_ A B C k merge m ins rs (inl rs2) /\
      RecSpec.rsem E s at_ B (k (f_val r)) m (f_pos r) ins (Some (f_left r)) o /\
      match o with
      | RSucc w j Y => rs1 = [f_then_succ ins merge r w j Y]
      | ROffer _ _ _ _ rs0 => rs1 = map (f_then_repair merge r) rs0
      | _ => rs1 = []
      end
  | _, inr _ => True
  end.
Lemma rconts_inv A B C (k : A -> gram B) (merge : A -> B -> C) m ins rs x :
  rconts E s at_ A B C k merge m ins rs x -> rconts_view k merge m ins rs x.
Proof.
  intros H. destruct H; cbn; auto; eexists _, _, _; (split; [|split; [eassumption|split; [eassumption|cbn; reflexivity]]]); reflexivity.
Qed.
Lemma rconts_from A B C (k : A -> gram B) (merge : A -> B -> C) m ins rs : forall rs', 
  rconts E s at_ A B C k merge m ins rs (inl rs') -> forall r', In r' rs' ->
  exists r o, In r rs /\ RecSpec.rsem E s at_ B (k (f_val r)) m (f_pos r) ins (Some (f_left r)) o /\
    match o with
    | RSucc w j Y => r' = f_then_succ ins merge r w j Y
    | ROffer _ _ _ _ rs0 => exists r0, In r0 rs0 /\ r' = f_then_repair merge r r0
    | _ => False
    end.
Proof.
  induction rs as [|r rs IH]; intros rs' H r' Hr; apply rconts_inv in H; cbn in H.
  - subst. destruct Hr.
  - destruct H as (o & rs1 & rs2 & -> & H1 & H2 & H3). apply in_app_or in Hr as [Hr|Hr].
    + exists r, o. split; [left; auto|]. split; [auto|]. destruct o; subst rs1; cbn in Hr; try contradiction.
      * destruct Hr as [<-|[]]. reflexivity.
      * apply in_map_iff in Hr as (r0 & <- & Hr). eauto.
    + destruct (IH _ H1 _ Hr) as (r1 & o1 & K1 & K2). exists r1, o1. split; [right; auto|auto].
Qed.

Section Top.
Context {A : Type}.
Variable g : gram A.
Hypothesis Fg : fits g.
Hypothesis Lg : ll1 E F g (fun o => o = None).
Variable fmt : loc -> string.

Lemma complain w i (Q : list string -> Prop) :
  (forall at', exists b X, diag E (w ++ skipn i s) at' A (seql g GEof) 0 0 (DFail b (at' (List.length w)) X) /\ Q X) ->
  complains E g (w ++ skipn i s) (List.length w) Q.
Proof using HE HN Fg.
  intros H b mi get fm locof Hco. destruct (H locof) as (b' & X & D & HQ).
  destruct (C43_plain_diagnostics T V E A (seql g GEof) (w ++ skipn i s) mi get fm locof b HE
    (wf_eof _ _ (proj1 (proj1 (ev_here E _ _ _ Fg)))) Hco (lay_eof _ _ _ _ _ (any_lay _ _ A g Fg))) as (_ & K & _).
  destruct (proj2 (K _) (ex_intro _ b' (ex_intro _ _ (ex_intro _ X (conj D eq_refl))))) as (n & r & H1 & H2).
  eexists n, r, _. split; [exact H1|]. split; [exact H2|]. cbn. auto.
Qed.
Lemma contented w v : sentence E g w v -> content E g w v.
Proof using HE HN HF Fg Lg.
  intros H mi get fm locof Hco.
  assert (Q : forall B q, occurs E q A g -> fit B q) by exact Fg.
  destruct (C47_ll1_decides T V E A g w false 0%Z get fm locof HE (proj1 (proj1 (ev_here E _ _ _ Fg))) Hco (any_lay _ _ A g Fg)) as (n & r & H1 & H2).
  - intros B q Ho. apply (Q B q Ho).
  - exists F. auto.
  - intros B q Ho. apply (Q B q Ho).
  - apply guarded_everywhere. intros B q Ho. apply (Q B q Ho).
  - lia.
  - exists n, r. split; [exact H1|]. apply H2. exact H.
Qed.
Lemma text_top w i : text w i (w ++ skipn i s) 0.
Proof. split; [lia|reflexivity]. Qed.
Lemma replay_ops v fin es : forall i w ops rest tail errs, tells (R g 0) i w es ops fin -> i <= len ->
  skipn i s = edits_in es ++ rest ->
  one_by_one E g put same s at_ v (i + List.length (edits_in es)) fin tail errs ->
  one_by_one E g put same s at_ v i w (es ++ tail) (map (a_report fmt) ops ++ errs).
Proof using HE HN Fg.
  induction es as [|e es IH]; intros i w ops rest tail errs H Hi Hs Ht.
  - destruct H as [-> ->]. cbn in *. rewrite Nat.add_0_r in Ht. exact Ht.
  - assert (CM : forall o, R g 0 o i w -> complains E g (w ++ skipn i s) (List.length w) (fun X => same X (op_exp o))).
    { intros o (_ & _ & _ & R4). apply complain. intros at'. destruct (R4 _ at' 0%Z 0 (text_top w i)) as (X & D & Sm).
      exists (ne w), X. split; [|exact Sm]. apply dg_seq_fail. exact D. }
    destruct e as [t|ts|lb x]; cbn [tells one_by_one app] in *; unfold edits_in in Hs, Ht; cbn [flat_map edit_in app List.length] in Hs, Ht; fold (edits_in es) in Hs, Ht.
    + change (t :: edits_in es ++ rest) with ([t] ++ edits_in es ++ rest) in Hs.
      destruct (skipn_next s i [t] _ Hi Hs) as [N1 N2]. cbn [List.length] in *.
      split; [rewrite <- hd_skipn, Hs; reflexivity|].
      apply (IH _ _ _ rest); auto. replace (i + 1 + List.length (edits_in es)) with (i + S (List.length (edits_in es))) by lia. exact Ht.
    + destruct H as (o & ops' & -> & H1 & H2 & H3). rewrite <- app_assoc in Hs.
      destruct (skipn_next s i ts _ Hi Hs) as [N1 N2].
      exists (a_report fmt o), (map (a_report fmt) ops' ++ errs). split; [reflexivity|]. cbn [a_report ei_op ei_loc ei_expected].
      split; [congruence|]. split; [apply H2|]. split; [apply CM; auto|].
      split; [rewrite Hs, firstn_app, Nat.sub_diag, firstn_all, app_nil_r; reflexivity|].
      apply (IH _ _ _ rest); auto. rewrite app_length, Nat.add_assoc in Ht. exact Ht.
    + destruct H as (u & o & ops' & Hput & -> & H1 & H2 & H3).
      exists u, (a_report fmt o), (map (a_report fmt) ops' ++ errs). split; [exact Hput|]. split; [reflexivity|].
      cbn [a_report ei_op ei_loc ei_expected].
      split; [congruence|]. split; [apply H2|]. split; [apply CM; auto|]. apply (IH _ _ _ rest); auto.
Qed.

(** a repair of the whole input *)
Definition whole (r : offer A) : Prop := exists es, edits_in es = s /\
  one_by_one E g put same s at_ (f_val r) 0 [] es (map (a_report fmt) (f_ops r)).
Lemma skip_rest j w v o : j < len -> sentence E g w v -> op_op o = Skip (len - j) -> op_loc o = at_ j ->
  (forall at', exists X, diag E (w ++ skipn j s) at' A g 0 0 (DSucc v (List.length w) X) /\ same (X ++ ["end of file"%string]) (op_exp o)) ->
  one_by_one E g put same s at_ v j w [ESkip (skipn j s)] [a_report fmt o].
Proof using HE HN HF Fg Lg.
  intros Hj Hw H1 H2 H3. cbn [one_by_one]. assert (SL : List.length (skipn j s) = len - j) by apply skipn_length.
  exists (a_report fmt o), []. split; [reflexivity|]. cbn [a_report ei_op ei_loc ei_expected]. rewrite SL.
  split; [congruence|]. split; [auto|]. split; [|split; [|split; [auto|split; [lia|]]]].
  - apply complain. intros at'. destruct (H3 at') as (X & D & Sm).
    assert (De : diag E (w ++ skipn j s) at' unit GEof 0 (List.length w) (DFail false (at' (List.length w)) ["end of file"%string])).
    { apply dg_eof_fail. rewrite app_length. lia. }
    pose proof (dg_seq E _ at' A unit A g GEof (fun a _ => a) 0%Z 0 _ _ _ _ D De) as D'. eexists _, _. split; [exact D'|exact Sm].
  - rewrite <- SL, firstn_all. reflexivity.
  - apply contented. exact Hw.
Qed.
Theorem rsem_whole ins rem o : RecSpec.rsem E s at_ A (seql g GEof) 0 0 ins rem o ->
  match o with ROffer _ _ _ _ rs => forall r, In r rs -> whole r | _ => True end.
Proof using HE HN HF Fg Lg same_refl same_app.
  intros H. apply rsem_inv in H. cbn [seql rsem_view] in H.
  destruct H as [(v & j & X & o' & H1 & H2 & ->)|[(b & l & X & ->)|[(n & b & l & X & rs & rs' & H1 & H2 & ->)|[e ->]]]]; try exact I.
  - pose proof (rsem_good _ _ _ _ _ _ _ H1 _ Lg Fg ltac:(lia)) as (K1 & K2 & K3).
    assert (SL : slice s 0 j = firstn j s) by (unfold slice; rewrite Nat.sub_0_r; reflexivity).
    apply rsem_inv in H2. cbn [rsem_view] in H2. destruct H2 as [[_ ->]|[(b & l & Y & ->)|[Hj ->]]]; try exact I.
    cbn [r_after on_rvalue map]. intros r [<-|[]].
    exists (map EKeep (slice s 0 j) ++ [ESkip (skipn j s)]). cbn [f_with f_after f_val f_skip f_ops one_op map].
    destruct (edits_keep (slice s 0 j) 0) as (I1 & _ & _).
    rewrite edits_in_app, I1. split; [unfold edits_in; cbn; rewrite app_nil_r, SL; apply firstn_skipn|].
    change [a_report fmt (op_after (Nat.ltb 0 j) X {| op_op := Skip (len - j); op_loc := at_ j; op_exp := ["end of file"%string]; op_con := false |})]
      with (map (a_report fmt) [] ++ [a_report fmt (op_after (Nat.ltb 0 j) X {| op_op := Skip (len - j); op_loc := at_ j; op_exp := ["end of file"%string]; op_con := false |})]).
    apply (replay_ops v (slice s 0 j) _ 0 [] [] (skipn j s)); [|lia| |].
    + apply (tells_keep (R g 0) (slice s 0 j) 0 []).
    + rewrite I1, SL. symmetry. apply firstn_skipn.
    + rewrite I1, slice_len by lia. rewrite Nat.sub_0_r. cbn [Nat.add].
      apply skip_rest; auto; [lia|]. intros at'. exists X. split; [|apply same_refl].
      rewrite slice_len, Nat.sub_0_r by lia. rewrite SL, firstn_skipn.
      pose proof (K3 s at' 0%Z 0 (text_self 0 ltac:(lia))) as D. rewrite Nat.sub_0_r in D. exact D.
  - pose proof (rsem_good _ _ _ _ _ _ _ H1 _ Lg Fg ltac:(lia)) as (_ & _ & K2).
    intros r' Hr'. destruct (rconts_from _ _ _ _ _ _ _ _ _ H2 _ Hr') as (r & o & Hr & Ho & Hm).
    destruct (K2 r Hr) as [(es & t & N1 & N2 & N3 & N4 & N5 & N6 & N7) _].
    assert (SL : slice s 0 (f_pos r) = firstn (f_pos r) s) by (unfold slice; rewrite Nat.sub_0_r; reflexivity).
    assert (NL : List.length (edits_in es) = f_pos r) by (rewrite N1, slice_len by lia; lia).
    apply rsem_inv in Ho. cbn [rsem_view] in Ho. destruct Ho as [[Hj ->]|[(b0 & l0 & Y & ->)|[Hj ->]]]; [subst r'|destruct Hm|].
    + exists es. cbn [f_then_succ f_val f_ops]. split; [rewrite N1, SL, Hj; apply firstn_all|].
      rewrite <- (app_nil_r es), <- (app_nil_r (map _ _)). apply (replay_ops (f_val r) t es 0 [] (f_ops r) [] [] []); auto; [lia| |].
      * rewrite app_nil_r, N1, SL, Hj. cbn [skipn]. symmetry. apply firstn_all.
      * cbn [one_by_one Nat.add]. rewrite NL. split; [auto|]. split; [auto|]. apply contented. exact N4.
    + destruct Hm as (r0 & [<-|[]] & ->). exists (es ++ [ESkip (skipn (f_pos r) s)]).
      cbn [f_then_repair f_val f_ops f_skip one_op map]. rewrite edits_in_app, N1, SL.
      split; [unfold edits_in; cbn; rewrite app_nil_r; apply firstn_skipn|].
      rewrite map_app. apply (replay_ops (f_val r) t es 0 [] (f_ops r) (skipn (f_pos r) s)); auto; [lia| |].
      * rewrite N1, SL. symmetry. apply firstn_skipn.
      * rewrite NL. cbn [Nat.add map]. apply skip_rest; auto; [lia|]. intros at'.
        destruct (N7 (t ++ skipn (f_pos r) s) at' 0%Z 0 (text_top _ _)) as (X1 & D & Sm).
        exists X1. split; [exact D|]. cbn [op_after op_con op_exp]. apply same_app; auto.
Qed.
End Top.
End Replay.
