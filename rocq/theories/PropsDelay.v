(** C31: a Delay can be defined exactly once.  C32: forward references are
    equivalent to direct ones. *)
From Verif Require Export DelaySpec PropsCongr.

Section PropsDelay.
Context {T : Type} {V : nat -> Type}.
Notation gram := (gram T V).
Notation pobj := (pobj T V).
Notation history := (history T V).

Lemma upd_same {P : nat -> Type} (f : forall d, P d) d x : upd f d x d = x.
Proof.
  unfold upd. destruct (Nat.eq_dec d d) as [e|n]; [|congruence].
  rewrite (Eqdep_dec.UIP_refl_nat d e). reflexivity.
Qed.
Lemma upd_other {P : nat -> Type} (f : forall d, P d) d x d' : d <> d' -> upd f d x d' = f d'.
Proof. intros H. unfold upd. destruct (Nat.eq_dec d d'); [congruence|reflexivity]. Qed.

Lemma defined_of (h : history) d : ds_defined (state_of h) d = defined_in h d.
Proof.
  induction h as [|[d' o w] h IH]; simpl; auto. unfold define. rewrite <- IH.
  destruct (Nat.eqb_spec d' d) as [->|Hn]; simpl.
  - destruct (ds_defined (state_of h) d) eqn:H; simpl; auto. rewrite upd_same. auto.
  - destruct (ds_defined (state_of h) d'); simpl; auto. rewrite upd_other; auto.
Qed.

(** [h'] happens after [h] *)
Definition later (h' h : history) : Prop := exists l, h' = l ++ h.
Lemma defined_later h' h d : later h' h -> defined_in h d = true -> defined_in h' d = true.
Proof.
  intros [l ->] H. unfold defined_in in *. rewrite existsb_app, H. apply orb_true_r.
Qed.
Lemma fns_later h' h d : later h' h -> defined_in h d = true ->
  ds_fns (state_of h') d = ds_fns (state_of h) d /\ written_env h' d = written_env h d.
Proof.
  intros [l ->] H. induction l as [|[d' o w] l [IH1 IH2]]; simpl; auto.
  assert (Hl : defined_in (l ++ h) d = true) by (eapply defined_later; eauto; exists l; auto).
  unfold define. rewrite defined_of. destruct (defined_in (l ++ h) d') eqn:Hd'; simpl; auto.
  assert (d' <> d) by congruence. rewrite !upd_other; auto.
Qed.

Lemma built_delay (h : history) A (o : pobj A) (w : gram A) : built h A o w ->
  match o in Delay.pobj _ _ A return gram A -> Prop with ODelay d => fun w => w = GDelay d | OFns _ => fun _ => True end w.
Proof. intros H. induction H; simpl; auto. Qed.

Lemma built_ind' (P : history -> forall A, pobj A -> gram A -> Prop) :
  (forall h d, P h (V d) (ODelay d) (GDelay d)) ->
  (forall h A (g w : gram A), ~ is_bind g ->
     alike (fun B p v => exists o, P h B o v /\ p = to_fns (state_of h) o) A g w -> P h A (OFns g) w) ->
  (forall h A B (o : pobj A) (v : gram A) (f : A -> pobj B) (w : A -> gram B),
     P h A o v -> (forall x, P h B (f x) (w x)) -> (forall x, built h B (f x) (w x)) ->
     P h B (OFns (GBind (to_fns (state_of h) o) (fun x => methods (f x)))) (GBind v w)) ->
  (forall e h A (o : pobj A) (w : gram A), built h A o w -> P h A o w -> P (e :: h) A o w) ->
  forall h A o w, built h A o w -> P h A o w.
Proof.
  intros H1 H2 H3 H4. fix IH 5. intros h A o w H.
  destruct H as [h d|h A g w Hb H|h A B o v f w Ho Hf|e h A o w H]; auto.
  apply H2; [exact Hb|].
  destruct H; try (destruct (Hb I)); constructor;
    repeat match goal with
    | K : exists o, built _ _ o _ /\ _ |- _ => destruct K as (? & ? & ?)
    end; eauto.
Qed.

Definition Rb (h : history) : forall A, gram A -> gram A -> Prop :=
  rebuilt (fun _ _ _ => False) (written_env h) (ds_fns (state_of h)).

Lemma alike_imp (R R' : forall A, gram A -> gram A -> Prop) :
  (forall A p q, R A p q -> R' A p q) -> forall A p q, alike R A p q -> alike R' A p q.
Proof. intros H A p q K. destruct K; constructor; auto. Qed.

Lemma rb_tofns h' h d : later h' h ->
  (defined_in h d = true -> Rb h' _ (written_env h' d) (ds_fns (state_of h') d)) ->
  Rb h' _ (GDelay d) (to_fns (state_of h) (ODelay d)).
Proof.
  intros Hl Hd. simpl. rewrite defined_of. destruct (defined_in h d) eqn:E; [|apply rb_delay].
  destruct (fns_later _ _ _ Hl E) as [<- _]. apply rb_unfold. apply Hd. reflexivity.
Qed.
Lemma built_rebuilt : forall h A (o : pobj A) w, built h A o w ->
  forall h', later h' h ->
  (forall d, defined_in h d = true -> Rb h' _ (written_env h' d) (ds_fns (state_of h') d)) ->
  Rb h' A w (to_fns (state_of h) o).
Proof.
  apply (built_ind' (fun h A o w => forall h', later h' h ->
    (forall d, defined_in h d = true -> Rb h' _ (written_env h' d) (ds_fns (state_of h') d)) ->
    Rb h' A w (to_fns (state_of h) o))).
  - intros h d h' Hl Hd. apply rb_tofns; auto.
  - intros h A g w _ H h' Hl Hd. apply rb_alike. simpl.
    apply (alike_sym (fun B p v => rebuilt (fun _ _ _ => False) (written_env h') (ds_fns (state_of h')) B v p)); [auto|].
    eapply alike_imp; [|exact H]. intros B p v (o & Ho & ->). exact (Ho h' Hl Hd).
  - intros h A B o v f w Ho Hf Hb h' Hl Hd. simpl. apply rb_alike, al_bind; [apply Ho; auto|].
    intros x. specialize (Hf x h' Hl Hd). specialize (Hb x). apply built_delay in Hb.
    destruct (f x) as [d|C g]; [|exact Hf]. rewrite Hb. apply rb_delay.
  - intros e h A o w Hb Ho h' Hl Hd.
    assert (Hl' : later h' h) by (destruct Hl as [l ->]; exists (l ++ [e]); rewrite <- app_assoc; reflexivity).
    assert (Hd' : forall d, defined_in h d = true -> Rb h' _ (written_env h' d) (ds_fns (state_of h') d)).
    { intros d H. apply Hd. simpl. unfold defined_in in H |- *. simpl. rewrite H. apply orb_true_r. }
    specialize (Ho h' Hl' Hd'). apply built_delay in Hb. destruct o as [d|B g]; [|exact Ho].
    rewrite Hb. apply rb_tofns; auto.
Qed.

Lemma to_fns_mark (st : dstate T V) d A (o : pobj A) : ~ is_delay d o ->
  to_fns (DState (upd (P:=fun _ => bool) (ds_defined st) d true) (ds_fns st)) o = to_fns st o.
Proof. destruct o as [d'|B g]; simpl; auto. intros H. rewrite upd_other; auto. Qed.
Lemma defs_rebuilt h : valid h -> forall h', later h' h ->
  forall d, defined_in h d = true -> Rb h' _ (written_env h' d) (ds_fns (state_of h') d).
Proof.
  induction h as [|[d o w] h IH]; simpl; [discriminate|]. intros [Hv He] h' Hl d' Hd.
  assert (Hl' : later h' h) by (destruct Hl as [l ->]; exists (l ++ [Define d o w]); rewrite <- app_assoc; reflexivity).
  specialize (IH Hv h' Hl').
  destruct (defined_in h d') eqn:E; [apply IH; auto|]. rewrite orb_false_r in Hd.
  apply Nat.eqb_eq in Hd. subst d'. destruct (He E) as [Hb Hn].
  destruct (fns_later h' (Define d o w :: h) d Hl) as [-> ->].
  { simpl. rewrite Nat.eqb_refl. reflexivity. }
  simpl. rewrite E. unfold define. rewrite defined_of, E. simpl. rewrite !upd_same.
  pose proof (built_rebuilt _ _ _ _ Hb h' Hl' IH) as K.
  rewrite to_fns_mark; auto.
Qed.

Lemma defs_all h : valid h -> forall d, Rb h _ (written_env h d) (ds_fns (state_of h) d).
Proof.
  intros Hv d. destruct (defined_in h d) eqn:E; [eapply defs_rebuilt; eauto; exists []; auto|].
  assert (K : written_env h d = GUndef /\ ds_fns (state_of h) d = GUndef).
  { clear Hv. induction h as [|[d' o w] h IH]; simpl; auto. simpl in E. apply orb_false_iff in E as [E1 E2].
    apply Nat.eqb_neq in E1. destruct (IH E2) as [K1 K2].
    unfold define. rewrite defined_of. destruct (defined_in h d'); simpl; auto. rewrite !upd_other; auto. }
  destruct K as [-> ->]. apply rb_alike, al_undef.
Qed.

Lemma rb_agree (E1 E2 : env T V) A (g g' : gram A) s pos c :
  (forall d, rebuilt (fun _ _ _ => False) E1 E2 _ (E1 d) (E2 d)) ->
  rebuilt (fun _ _ _ => False) E1 E2 A g g' ->
  agree True (fun n => fast E1 n g s pos c) (fun n => fast E2 n g' s pos c) /\
  forall ins rem,
  agree True (fun n => full E1 n g s pos c ins rem) (fun n => full E2 n g' s pos c ins rem).
Proof.
  intros HE Hg.
  pose proof (fun n => proj2 (rebuilt_sim True E1 E2 False s (fun d F => match F with end) (fun _ _ _ => False)
    (fun B p q (H : False) => match H with end) HE n) A g g' Hg (fun F => match F with end)) as S1.
  pose proof (fun n => proj2 (rebuilt_sim True E2 E1 False s (fun d F => match F with end) (fun _ _ _ => False)
    (fun B p q (H : False) => match H with end)
    (fun d => rebuilt_sym _ (fun _ _ _ => False) E1 E2 (fun _ _ _ H => H) _ _ _ (HE d)) n) A g' g
    (rebuilt_sym _ (fun _ _ _ => False) E1 E2 (fun _ _ _ H => H) _ _ _ Hg) (fun F => match F with end)) as S2.
  split; [|intros ins rem]; apply apx_agree; intros n;
    solve [apply (S1 n); intros []|apply (S2 n); intros []].
Qed.
Lemma rb_parse (E1 E2 : env T V) A (g g' : gram A) s rec k get fmt :
  (forall d, rebuilt (fun _ _ _ => False) E1 E2 _ (E1 d) (E2 d)) ->
  rebuilt (fun _ _ _ => False) E1 E2 A g g' ->
  agree True (fun n => parse E1 n g s rec k get fmt) (fun n => parse E2 n g' s rec k get fmt).
Proof.
  intros HE Hg. destruct (rb_agree E1 E2 A g g' s 0 (init_ctx get) HE Hg). apply agree_parse; auto.
Qed.
End PropsDelay.

(** ** C32  Whatever the order of constructions and definitions, an object
    behaves as its expression, read with the definitions as written *)
Theorem C32_meaning_as_written :
  forall T V (h : history T V) A (o : pobj T V A) (w : gram T V A),
  valid h -> built h A o w ->
  forall s recover k get fmt,
  agree True (fun n => obj_parse (state_of h) n o s recover k get fmt)
             (fun n => parse (written_env h) n w s recover k get fmt).
Proof.
  intros T V h A o w Hv Hb s rec k get fmt. apply agree_sym. unfold obj_parse. apply rb_parse.
  - apply defs_all; auto.
  - pose proof (built_rebuilt _ _ _ _ Hb h (ex_intro _ [] eq_refl) (fun d _ => defs_all h Hv d)) as K.
    pose proof (built_delay _ _ _ _ Hb) as Hd. destruct o as [d|B g]; [|exact K].
    simpl in Hd. subst w. apply rb_delay.
Qed.
Print Assumptions C32_meaning_as_written.

(** the same expression built in two programs that define the Delays by the same
    expressions, in any order, before or after its construction *)
Theorem C32_order_irrelevant :
  forall T V (h1 h2 : history T V) A (o1 o2 : pobj T V A) (w : gram T V A),
  valid h1 -> valid h2 -> built h1 A o1 w -> built h2 A o2 w ->
  (forall d, written_env h1 d = written_env h2 d) ->
  forall s recover k get fmt,
  agree True (fun n => obj_parse (state_of h1) n o1 s recover k get fmt)
             (fun n => obj_parse (state_of h2) n o2 s recover k get fmt).
Proof.
  intros T V h1 h2 A o1 o2 w V1 V2 B1 B2 HE s rec k get fmt.
  eapply agree_trans; [apply (C32_meaning_as_written _ _ _ _ _ _ V1 B1)|].
  eapply agree_trans; [|apply agree_sym; apply (C32_meaning_as_written _ _ _ _ _ _ V2 B2)].
  apply rb_parse; [|apply rebuilt_refl]. intros d. rewrite HE. apply rebuilt_refl.
Qed.
Print Assumptions C32_order_irrelevant.

(** ** C31 *)
Section C31.
Context {T : Type} {V : nat -> Type}.
Notation history := (history T V).
Notation pobj := (pobj T V).

(** the outcome of a [define] call *)
Theorem C31_define_outcome (h : history) d (o : pobj (V d)) :
  snd (define (state_of h) d o) = if defined_in h d then Raise DelayRedefined else Ret tt.
Proof. unfold define. rewrite defined_of. destruct (defined_in h d); reflexivity. Qed.

(** before the first [define], parsing raises *)
Theorem C31_undefined_raises (h : history) d n s recover k get fmt :
  defined_in h d = false -> 2 <= n ->
  obj_parse (state_of h) n (ODelay d : pobj (V d)) s recover k get fmt = Raise DelayUndefined.
Proof.
  intros Hd Hn. destruct n as [|[|n]]; try lia.
  assert (K : ds_fns (state_of h) d = GUndef).
  { induction h as [|[d' o w] h IH]; simpl; auto. simpl in Hd. apply orb_false_iff in Hd as [E1 E2].
    apply Nat.eqb_neq in E1. unfold define. rewrite defined_of.
    destruct (defined_in h d'); simpl; auto. rewrite upd_other; auto. }
  unfold obj_parse, parse, methods. destruct recover; cbn [full fast]; rewrite K; reflexivity.
Qed.

(** the first [define] decides for all later parses, whatever is defined or
    attempted afterwards *)
Theorem C31_first_define_decides (h1 h2 : history) d (o : pobj (V d)) w :
  defined_in h1 d = false -> valid (h2 ++ Define d o w :: h1) ->
  forall s recover k get fmt,
  agree True (fun n => obj_parse (state_of (h2 ++ Define d o w :: h1)) n (ODelay d : pobj (V d)) s recover k get fmt)
             (fun n => obj_parse (state_of (h2 ++ Define d o w :: h1)) n o s recover k get fmt).
Proof.
  intros Hd Hv s rec k get fmt.
  assert (Hb : built (h2 ++ Define d o w :: h1) _ o w).
  { clear - Hd Hv. induction h2 as [|[d' o' w'] h2 IH]; simpl in *.
    - apply bt_later. apply Hv. auto.
    - apply bt_later. apply IH. apply Hv. }
  eapply agree_trans; [apply (C32_meaning_as_written _ _ _ _ _ (GDelay d) Hv (bt_delay _ d))|].
  eapply agree_trans; [|apply agree_sym; apply (C32_meaning_as_written _ _ _ _ _ _ Hv Hb)].
  apply rb_parse; [intros; apply rebuilt_refl|]. apply rb_unfold.
  destruct (fns_later (h2 ++ Define d o w :: h1) (Define d o w :: h1) d) as [_ ->].
  - exists h2. reflexivity.
  - simpl. rewrite Nat.eqb_refl. reflexivity.
  - simpl. rewrite Hd, upd_same. apply rebuilt_refl.
Qed.

(** a further [define] changes nothing *)
Theorem C31_redefine_changes_nothing (h : history) d (o : pobj (V d)) w :
  defined_in h d = true ->
  forall A (x : pobj A) n s recover k get fmt,
  obj_parse (state_of (Define d o w :: h)) n x s recover k get fmt =
  obj_parse (state_of h) n x s recover k get fmt.
Proof. intros Hd A x n s rec k get fmt. simpl. unfold define. rewrite defined_of, Hd. reflexivity. Qed.

(** [d.define(d)] succeeds, but leaves a parser that always raises
    RuntimeError("Delayed parser was not defined") and cannot be defined again *)
Theorem C31_self_define (h1 h2 : history) d w n s recover k get fmt o :
  defined_in h1 d = false -> 2 <= n ->
  let h := h2 ++ Define d (ODelay d) w :: h1 in
  obj_parse (state_of h) n (ODelay d : pobj (V d)) s recover k get fmt = Raise DelayUndefined /\
  snd (define (state_of h) d o) = Raise DelayRedefined.
Proof.
  intros Hd Hn h. split.
  - assert (K : ds_fns (state_of h) d = GUndef).
    { unfold h. destruct (fns_later (h2 ++ Define d (ODelay d) w :: h1) (Define d (ODelay d) w :: h1) d) as [-> _].
      - exists h2. reflexivity.
      - simpl. rewrite Nat.eqb_refl. reflexivity.
      - simpl. unfold define. rewrite defined_of, Hd. simpl. rewrite upd_same. simpl. rewrite upd_same.
        clear - Hd. induction h1 as [|[d' o w] h IH]; simpl; auto. simpl in Hd. apply orb_false_iff in Hd as [E1 E2].
        apply Nat.eqb_neq in E1. unfold define. rewrite defined_of.
        destruct (defined_in h d'); simpl; auto. rewrite upd_other; auto. }
    destruct n as [|[|n]]; try lia.
    unfold obj_parse, parse, methods. destruct recover; cbn [full fast]; rewrite K; reflexivity.
  - rewrite C31_define_outcome. unfold h. rewrite (defined_later _ (Define d (ODelay d) w :: h1)); auto.
    + exists h2. reflexivity.
    + simpl. rewrite Nat.eqb_refl. reflexivity.
Qed.
End C31.
Print Assumptions C31_define_outcome.
Print Assumptions C31_undefined_raises.
Print Assumptions C31_first_define_decides.
Print Assumptions C31_redefine_changes_nothing.
Print Assumptions C31_self_define.

(** every expression can be evaluated at any time *)
Lemma built_build {T V} (h : history T V) A (w : gram T V A) : built h A (build (state_of h) w) w.
Proof.
  induction w; cbn [build]; try apply bt_delay; try (apply bt_comb; [exact (fun F => F)|]; constructor; eauto; fail).
  apply bt_bind; auto.
Qed.
Theorem C32_build_any_time :
  forall T V (h : history T V) l A (w : gram T V A), valid (l ++ h) ->
  forall s recover k get fmt,
  agree True (fun n => obj_parse (state_of (l ++ h)) n (build (state_of h) w) s recover k get fmt)
             (fun n => obj_parse (state_of (l ++ h)) n (build (state_of (l ++ h)) w) s recover k get fmt).
Proof.
  intros T V h l A w Hv. apply (C32_order_irrelevant _ _ _ _ _ _ _ w Hv Hv); auto.
  - induction l as [|e l IH]; [apply built_build|]. apply bt_later. apply IH. destruct e. apply Hv.
  - apply built_build.
Qed.
Print Assumptions C32_build_any_time.

(** ** Case: the recursive expression grammar.  [top] is built before Delay 0 is
    defined (and captures its methods), [top'] afterwards (and captures the
    functions of its definition); then a second definition is attempted. *)
Definition c32_top := build ds_init ex_top.
Definition c32_h1 : history char ex_V := [Define 0 (build ds_init ex_expr) ex_expr].
Definition c32_top' := build (state_of c32_h1) ex_top.
Definition c32_h2 : history char ex_V := Define 0 (OFns (GPure 7%Z)) (GPure 7%Z) :: c32_h1.
Example C32_case :
  valid c32_h2 /\ built c32_h2 _ c32_top ex_top /\ built c32_h2 _ c32_top' ex_top /\
  c32_top = OFns ex_top /\ c32_top' = OFns (seql ex_expr GEof) /\
  snd (define (state_of c32_h1) 0 (OFns (GPure 7%Z))) = Raise DelayRedefined /\
  (forall k, obj_parse (state_of []) 9 c32_top (ex_str "1+(2+3)") k 5 default_get_loc default_fmt_loc = Raise DelayUndefined) /\
  match obj_parse (state_of c32_h2) 150 c32_top (ex_str "1+(2+3)") true 5 default_get_loc default_fmt_loc,
        obj_parse (state_of c32_h2) 150 c32_top' (ex_str "1+(2+3)") true 5 default_get_loc default_fmt_loc with
  | Ret r, Ret r' => unwrap r false = Returns 6%Z /\ unwrap r' false = Returns 6%Z
  | _, _ => False
  end.
Proof.
  split; [|split; [|split; [|split; [|split; [|split; [|split]]]]]].
  - split; [|discriminate]. split; [exact I|]. intros _. split; [apply (built_build [])|exact (fun F => F)].
  - do 2 apply bt_later. apply (built_build []).
  - apply bt_later. apply (built_build c32_h1).
  - reflexivity.
  - reflexivity.
  - reflexivity.
  - intros []; reflexivity.
  - vm_compute. auto.
Qed.
