(** Proofs about predictive parsing, by induction on the declarative semantics
    with diagnostics (DiagSpec.v). *)
From Verif Require Export LLSpec DiagSpec LangInv EditSpec.

Section LL.
Context {T : Type} {V : nat -> Type}.
Variable E : env T V.
Notation gram := (gram T V).

Lemma map_inl_inj (a b : list T) : map (@inl T string) a = map inl b -> a = b.
Proof.
  revert b. induction a as [|x a IH]; intros [|y b] H; simpl in H; try discriminate; auto.
  injection H as -> H. f_equal. auto.
Qed.
Lemma map_inl_app (w : list T) (w1 w2 : list (T + string)) :
  map inl w = w1 ++ w2 -> exists u1 u2, w = u1 ++ u2 /\ w1 = map inl u1 /\ w2 = map inl u2.
Proof.
  intros H. apply map_eq_app in H as (u1 & u2 & -> & <- & <-). eauto.
Qed.
Lemma map_inl_nil (w : list T) : map (@inl T string) w = [] -> w = [].
Proof. destruct w; [auto|discriminate]. Qed.
Lemma map_inl_one (w : list T) t : map (@inl T string) w = [inl t] -> w = [t].
Proof. destruct w as [|? [|]]; simpl; intros H; try discriminate. injection H as ->. auto. Qed.

(** ** Inversion of sentences *)
Definition sent_match {A} (g : gram A) : list T -> A -> Prop :=
  match g in Grammar.gram _ _ A return list T -> A -> Prop with
  | GPure x => fun w v => w = [] /\ v = x
  | GPureFn f => fun w v => w = [] /\ f tt = Ret v
  | GUnexpected _ => fun _ _ => False
  | GEof => fun w _ => w = []
  | GSatisfy test => fun w v => w = [v] /\ test v = Ret true
  | GSym teq x _ => fun w v => w = [v] /\ teq v x = true
  | GLiteral teq x _ => fun w v => v = x /\ Forall2 (fun a b => teq a b = true) w x
  | GRegexp re => fun w v => True
  | GFmap p f => fun w v => exists v0, sentence E p w v0 /\ f v0 = Ret v
  | GAlt p q => fun w v => sentence E p w v \/ sentence E q w v
  | GBind p f => fun w v => exists w1 w2 v0, w = w1 ++ w2 /\ sentence E p w1 v0 /\ sentence E (f v0) w2 v
  | GSeq p q merge => fun w v => exists w1 w2 v1 v2,
      w = w1 ++ w2 /\ v = merge v1 v2 /\ sentence E p w1 v1 /\ sentence E q w2 v2
  | GMaybe p => fun w v => (w = [] /\ v = None) \/ exists v0, v = Some v0 /\ sentence E p w v0
  | GMany p => fun w v => (w = [] /\ v = []) \/
      exists w1 w2 v1 l, w = w1 ++ w2 /\ v = v1 :: l /\ sentence E p w1 v1 /\ sentence E (GMany p) w2 l
  | GAttempt p => fun w v => sentence E p w v
  | GLabel p _ => fun w v => sentence E p w v
  | GRecover p => fun w v => sentence E p w v
  | GRecoverWith p x l => fun w v => sentence E p w v
  | GRecoverWithFn p fn lab => fun w v => sentence E p w v
  | GBlock p => fun w v => sentence E p w v
  | GAligned p => fun w v => sentence E p w v
  | GIndented _ p => fun w v => sentence E p w v
  | GDelay d => fun w v => sentence E (E d) w v
  | GUndef => fun _ _ => False
  end.
Lemma sent_inv A (g : gram A) w v : sentence E g w v -> sent_match g w v.
Proof.
  unfold sentence. intros H. apply lang_inv in H. destruct g; cbn in *; auto.
  - destruct H as [H1 H2]. auto using map_inl_nil.
  - destruct H as [H1 H2]. auto using map_inl_nil.
  - auto using map_inl_nil.
  - destruct H as [H1 H2]. auto using map_inl_one.
  - destruct H as [H1 H2]. auto using map_inl_one.
  - destruct H as (-> & y & H1 & H2). apply map_inl_inj in H1 as ->. auto.
  - destruct H as (w1 & w2 & v0 & H1 & H2 & H3).
    apply map_inl_app in H1 as (u1 & u2 & -> & -> & ->). eauto 10.
  - destruct H as (w1 & w2 & v1 & v2 & H1 & -> & H2 & H3).
    apply map_inl_app in H1 as (u1 & u2 & -> & -> & ->). eauto 10.
  - destruct H as [[H1 H2]|H]; auto using map_inl_nil.
  - destruct H as [[H1 H2]|(w1 & w2 & v1 & l & H1 & -> & H2 & H3)]; auto using map_inl_nil.
    apply map_inl_app in H1 as (u1 & u2 & -> & -> & ->). right. eauto 10.
  - destruct H as [H|[H _]]; auto. destruct w as [|? [|]]; discriminate.
  - destruct H as [H|(s & i & _ & H)]; auto. destruct w as [|? [|]]; discriminate.
Qed.

(** ** Building sentences *)
Lemma se_seq A B C (p : gram A) (q : gram B) (merge : A -> B -> C) w1 w2 v v' :
  sentence E p w1 v -> sentence E q w2 v' -> sentence E (GSeq p q merge) (w1 ++ w2) (merge v v').
Proof. unfold sentence. rewrite map_app. intros. constructor; auto. Qed.
Lemma se_bind A B (p : gram A) (f : A -> gram B) w1 w2 v v' :
  sentence E p w1 v -> sentence E (f v) w2 v' -> sentence E (GBind p f) (w1 ++ w2) v'.
Proof. unfold sentence. rewrite map_app. intros. econstructor; eauto. Qed.
Lemma se_many A (p : gram A) w1 w2 v l :
  sentence E p w1 v -> sentence E (GMany p) w2 l -> sentence E (GMany p) (w1 ++ w2) (v :: l).
Proof. unfold sentence. rewrite map_app. intros. constructor; auto. Qed.

(** inheritance of global conditions *)
Lemma ev_here (P : forall B, gram B -> Prop) A (g : gram A) : everywhere E P g -> P A g.
Proof. intros H. apply H. constructor. Qed.
Ltac sub := intros H B' q' Ho; apply H; constructor; exact Ho.
Lemma ev_fmap P A B (p : gram A) (f : A -> out B) : everywhere E P (GFmap p f) -> everywhere E P p.
Proof. sub. Qed.
Lemma ev_alt_l P A (p q : gram A) : everywhere E P (GAlt p q) -> everywhere E P p.
Proof. sub. Qed.
Lemma ev_alt_r P A (p q : gram A) : everywhere E P (GAlt p q) -> everywhere E P q.
Proof. intros H B' q' Ho; apply H; apply oc_alt_r; exact Ho. Qed.
Lemma ev_bind_l P A B (p : gram A) (f : A -> gram B) : everywhere E P (GBind p f) -> everywhere E P p.
Proof. intros H B' q' Ho; apply H; apply oc_bind_l; exact Ho. Qed.
Lemma ev_bind_r P A B (p : gram A) (f : A -> gram B) v :
  everywhere E P (GBind p f) -> everywhere E P (f v).
Proof. intros H B' q' Ho; apply H; eapply oc_bind_r; exact Ho. Qed.
Lemma ev_seq_l P A B C (p : gram A) (q : gram B) (m : A -> B -> C) :
  everywhere E P (GSeq p q m) -> everywhere E P p.
Proof. intros H B' q' Ho; apply H; apply oc_seq_l; exact Ho. Qed.
Lemma ev_seq_r P A B C (p : gram A) (q : gram B) (m : A -> B -> C) :
  everywhere E P (GSeq p q m) -> everywhere E P q.
Proof. intros H B' q' Ho; apply H; apply oc_seq_r; exact Ho. Qed.
Lemma ev_maybe P A (p : gram A) : everywhere E P (GMaybe p) -> everywhere E P p.
Proof. sub. Qed.
Lemma ev_many P A (p : gram A) : everywhere E P (GMany p) -> everywhere E P p.
Proof. sub. Qed.
Lemma ev_attempt P A (p : gram A) : everywhere E P (GAttempt p) -> everywhere E P p.
Proof. sub. Qed.
Lemma ev_label P A (p : gram A) x : everywhere E P (GLabel p x) -> everywhere E P p.
Proof. sub. Qed.
Lemma ev_recover P A (p : gram A) : everywhere E P (GRecover p) -> everywhere E P p.
Proof. sub. Qed.
Lemma ev_with P A (p : gram A) x l : everywhere E P (GRecoverWith p x l) -> everywhere E P p.
Proof. sub. Qed.
Lemma ev_withfn P A (p : gram A) fn lab : everywhere E P (GRecoverWithFn p fn lab) -> everywhere E P p.
Proof. sub. Qed.
Lemma ev_block P A (p : gram A) : everywhere E P (GBlock p) -> everywhere E P p.
Proof. sub. Qed.
Lemma ev_aligned P A (p : gram A) : everywhere E P (GAligned p) -> everywhere E P p.
Proof. sub. Qed.
Lemma ev_indented P A delta (p : gram A) : everywhere E P (GIndented delta p) -> everywhere E P p.
Proof. sub. Qed.
Lemma ev_delay P d : everywhere E P (GDelay d) -> everywhere E P (E d).
Proof. sub. Qed.
End LL.
Global Hint Resolve ev_fmap ev_alt_l ev_alt_r ev_bind_l ev_bind_r ev_seq_l ev_seq_r ev_maybe ev_many
  ev_attempt ev_label ev_recover ev_with ev_withfn ev_block ev_aligned ev_indented ev_delay : evdb.

(** ** Failures are reported inside a viable prefix, and depend on it only *)
Section Valid.
Context {T : Type} {V : nat -> Type}.
Variable E : env T V.
Notation gram := (gram T V).
Hypothesis HE : wf_env E.

Definition local {A} (g : gram A) : Prop :=
  everywhere E next_token_node g /\ everywhere E (fun B q => ~ is_layout B q) g.
Definition same_to (s s' : list T) (p : nat) : Prop :=
  forall k, k <= p -> nth_error s' k = nth_error s k.

Definition valid (s : list T) (at_ : nat -> loc) {A} (g : gram A) (m : Z) (i : nat) (o : dres A) : Prop :=
  match o with
  | DSucc v j X => i <= j <= List.length s /\ sentence E g (slice s i j) v /\
      (local g -> forall s' at', same_to s s' j -> diag E s' at' A g m i (DSucc v j X))
  | DFail b l X => exists p, l = at_ p /\ i <= p <= List.length s /\ (b = true -> i < p) /\
      (i < p -> viable E g (slice s i p)) /\
      (local g -> (b = false -> p = i) /\
         forall s' at', same_to s s' p -> diag E s' at' A g m i (DFail b (at' p) X))
  | DExn _ => True
  end.

Lemma same_le s s' p q : same_to s s' p -> q <= p -> same_to s s' q.
Proof. intros H Hq k Hk. apply H. lia. Qed.

Lemma local_sub {A B} (g : gram A) (p : gram B) :
  (forall P, everywhere E P g -> everywhere E P p) -> local g -> local p.
Proof. intros H [L1 L2]. split; apply H; auto. Qed.
Lemma valid_ok s at_ A B (p : gram A) (g : gram B) m m' i v v' j X X' :
  (forall w, sentence E p w v -> sentence E g w v') ->
  (forall P, everywhere E P g -> everywhere E P p) ->
  (local g -> forall s' at', diag E s' at' A p m' i (DSucc v j X) -> diag E s' at' B g m i (DSucc v' j X')) ->
  valid s at_ p m' i (DSucc v j X) -> valid s at_ g m i (DSucc v' j X').
Proof.
  intros H1 H2 H3 (K1 & K2 & K3). split; [auto|]. split; [auto|].
  intros; apply H3; auto. apply K3; auto. eapply local_sub; eauto.
Qed.
Lemma valid_fail s at_ A B (p : gram A) (g : gram B) m m' i b b' l X X' :
  (forall w v, sentence E p w v -> exists w' v', sentence E g (w ++ w') v') ->
  (forall P, everywhere E P g -> everywhere E P p) ->
  (local g -> forall s' at' q, diag E s' at' A p m' i (DFail b (at' q) X) ->
     diag E s' at' B g m i (DFail b' (at' q) X')) ->
  (b' = true -> b = true) -> (local g -> b' = b) ->
  valid s at_ p m' i (DFail b l X) -> valid s at_ g m i (DFail b' l X').
Proof.
  intros H1 H2 H3 H4 H5 (q & K1 & K2 & K3 & K4 & K5). exists q.
  split; [auto|]. split; [auto|]. split; [auto|]. split.
  - intros Hq. destruct (K4 Hq) as (w & v & H). apply H1 in H as (w' & v' & H).
    rewrite <- app_assoc in H. exists (w ++ w'), v'. auto.
  - intros L. destruct (K5 (local_sub _ _ H2 L)) as [K6 K7]. split; [rewrite H5 by auto; auto|].
    intros; apply H3; auto.
Qed.
Lemma valid_wrap s at_ A (p g : gram A) m m' i o :
  (forall w v, sentence E p w v -> sentence E g w v) ->
  (forall P, everywhere E P g -> everywhere E P p) ->
  (local g -> forall s' at' o, diag E s' at' A p m' i o -> diag E s' at' A g m i o) ->
  valid s at_ p m' i o -> valid s at_ g m i o.
Proof.
  intros H1 H2 H3 K. destruct o as [v j X|b l X|e]; [| |exact I].
  - revert K. apply valid_ok; auto.
  - revert K. apply valid_fail; auto. intros w v K. exists [], v. rewrite app_nil_r. auto.
Qed.
Lemma same_none s s' i : i <= List.length s -> same_to s s' i -> nth_error s i = None ->
  i = List.length s /\ i = List.length s'.
Proof.
  intros Hi Hs Hn. apply nth_error_None in Hn. split; [lia|].
  assert (H := Hs i (le_n i)). rewrite (proj2 (nth_error_None s i)) in H by lia.
  apply nth_error_None in H.
  destruct i as [|i]; [lia|]. specialize (Hs i ltac:(lia)).
  assert (nth_error s i <> None) by (apply nth_error_Some; lia).
  rewrite <- Hs in H0. apply nth_error_Some in H0. lia.
Qed.
Lemma same_some s s' i t : same_to s s' i -> nth_error s i = Some t -> nth_error s' i = Some t.
Proof. intros Hs <-. apply Hs. lia. Qed.
Lemma skipn_nth (s : list T) i t : nth_error s i = Some t -> exists l, skipn i s = t :: l.
Proof.
  revert s. induction i as [|i IH]; intros [|x s] H; simpl in *; try discriminate; eauto.
  injection H as ->. eauto.
Qed.
Lemma starts_one (teq : T -> T -> bool) a (s : list T) i :
  starts_with teq [a] s i = match nth_error s i with Some t => teq t a | None => false end.
Proof.
  unfold starts_with. destruct (nth_error s i) eqn:H.
  - apply skipn_nth in H as [l ->]. simpl. apply andb_true_r.
  - apply nth_error_None in H. rewrite skipn_all2 by lia. reflexivity.
Qed.
Lemma starts_within (teq : T -> T -> bool) x (s : list T) i :
  starts_with teq x s i = true -> i <= List.length s -> i + List.length x <= List.length s.
Proof.
  unfold starts_with. intros H Hi. rewrite <- (firstn_skipn i s), app_length, firstn_length.
  rewrite Nat.min_l by lia. apply Nat.add_le_mono_l. revert H. generalize (skipn i s).
  induction x as [|a x IH]; intros [|b l]; simpl; intros H; try discriminate; try lia.
  apply andb_true_iff in H as [_ H]. apply IH in H. lia.
Qed.

Notation compl := (everywhere E (completable_node E)).

(** sequencing of two valid parts *)
Lemma valid_after s at_ A B C (p : gram A) (q : gram B) (g : gram C) (h : B -> C) m i v j X o :
  (forall w w' v', sentence E p w v -> sentence E q w' v' -> sentence E g (w ++ w') (h v')) ->
  (local g -> local p) -> (local g -> local q) ->
  (forall s' at' o, local g -> diag E s' at' A p m i (DSucc v j X) -> diag E s' at' B q m j o ->
     diag E s' at' C g m i (on_dvalue h (d_after i j X o))) ->
  (exists w' v', sentence E q w' v') ->
  valid s at_ p m i (DSucc v j X) -> valid s at_ q m j o ->
  valid s at_ g m i (on_dvalue h (d_after i j X o)).
Proof.
  intros H1 Lp Lq H2 H3 (K1 & K2 & K3) HO.
  destruct o as [v' k Y|b l Y|e]; simpl in *; auto.
  - destruct HO as (O1 & O2 & O3). split; [lia|]. split.
    + rewrite <- (slice_app s i j k) by lia. auto.
    + intros L s' at' Hs. apply (H2 s' at' (DSucc v' k Y) L).
      * apply K3; auto. eapply same_le; eauto. lia.
      * apply O3; auto.
  - destruct HO as (r & -> & O2 & O3 & O4 & O5).
    assert (Hv : viable E g (slice s i r)).
    { destruct (Nat.eq_dec r j) as [->|Hr].
      - destruct H3 as (w' & v' & H3). exists w', (h v'). auto.
      - destruct O4 as (w' & v' & O4); [lia|]. exists w', (h v').
        rewrite <- (slice_app s i j r), <- app_assoc by lia. auto. }
    assert (HL : local g -> forall s' at', same_to s s' r ->
      diag E s' at' C g m i (on_dvalue h (d_after i j X (DFail b (at' r) Y)))).
    { intros L s' at' Hs. apply H2; auto.
      - apply K3; auto. eapply same_le; eauto. lia.
      - apply O5; auto. }
    destruct b; simpl in *; exists r; (split; [auto|]); (split; [lia|]).
    + split; [intros _; specialize (O3 eq_refl); lia|]. split; [auto|]. intros L. split; [discriminate|].
      auto.
    + split; [intros Hij; apply Nat.ltb_lt in Hij; lia|]. split; [auto|]. intros L. split; auto.
      intros Hij. apply Nat.ltb_ge in Hij. destruct (O5 (Lq L)) as [O6 _]. specialize (O6 eq_refl). lia.
Qed.

Lemma many_commits s at_ A (g : gram A) m i o : diag E s at_ A g m i o ->
  match g, o with GMany _, DFail b _ _ => b = true | _, _ => True end.
Proof. intros H. induction H; try exact I; auto. Qed.

Ltac sub1 := auto; try (intros ?P; first [apply ev_fmap|apply ev_alt_l|apply ev_alt_r|apply ev_bind_l
  |apply ev_bind_r|apply ev_seq_l|apply ev_seq_r|apply ev_maybe|apply ev_many|apply ev_attempt|apply ev_label
  |apply ev_recover|apply ev_with|apply ev_withfn|apply ev_block|apply ev_aligned|apply ev_indented|apply ev_delay]; fail).

Lemma diag_valid s at_ A (g : gram A) m i o :
  diag E s at_ A g m i o -> wf g -> i <= List.length s -> compl g -> valid s at_ g m i o.
Proof.
  intros H. induction H; intros Hw Hi Hc; try exact I.
  all: try (destruct Hw as [Hn Hw]).
  - (* pure *) simpl. rewrite slice_nil. repeat split; auto; constructor.
  - simpl. rewrite slice_nil. repeat split; auto; constructor; auto.
  - simpl. exists i. repeat split; auto; try lia; try discriminate. intros. constructor.
  - simpl. rewrite slice_nil. repeat split; auto; try constructor. intros L s' at' Hs.
    assert (Hx : nth_error s (List.length s) = None) by (apply nth_error_None; lia).
    destruct (same_none s s' _ Hi Hs Hx) as [_ Hl]. rewrite Hl. constructor.
  - simpl. exists i. repeat split; auto; try lia; try discriminate. intros s' at' Hs. constructor.
    intros ->. assert (Hx : nth_error s (List.length s') = None).
    { rewrite <- (Hs _ (le_n _)). apply nth_error_None. lia. }
    apply nth_error_None in Hx. lia.
  - simpl. assert (i < List.length s) by (apply nth_error_Some; congruence).
    rewrite (slice_one s i t) by auto. repeat split; try lia.
    + constructor; auto.
    + intros L s' at' Hs. apply dg_sat; auto. eapply same_some; eauto. eapply same_le; eauto. lia.
  - simpl. exists i. repeat split; auto; try lia; try discriminate. intros s' at' Hs.
    eapply dg_sat_no; eauto. eapply same_some; eauto.
  - simpl. exists i. repeat split; auto; try lia; try discriminate. intros s' at' Hs.
    apply dg_sat_end. rewrite (Hs i); auto.
  - simpl. assert (i < List.length s) by (apply nth_error_Some; congruence).
    rewrite (slice_one s i t) by auto. repeat split; try lia.
    + constructor; auto.
    + intros L s' at' Hs. apply dg_sym; auto. eapply same_some; eauto. eapply same_le; eauto. lia.
  - simpl. exists i. repeat split; auto; try lia; try discriminate. intros s' at' Hs.
    apply dg_sym_no. rewrite (Hs i); auto.
  - simpl. pose proof (starts_within _ _ _ _ H Hi). repeat split; try lia.
    + apply la_lit. apply starts_slice. exact H.
    + intros [L _] s' at' Hs. apply ev_here in L. simpl in L.
      apply dg_lit. destruct x as [|a [|]]; try discriminate. rewrite starts_one in *.
      rewrite (Hs i); auto. simpl in *. lia.
  - simpl. exists i. repeat split; auto; try lia; try discriminate. intros s' at' Hs.
    destruct H0 as [L _]. apply ev_here in L. simpl in L.
    apply dg_lit_no. destruct x as [|a [|]]; try discriminate. rewrite starts_one in *.
    rewrite (Hs i); auto.
  - simpl. destruct (Hn s i e (Some v) Hi H). repeat split; try lia.
    + apply la_re. exact H.
    + intros [L _] s' at' Hs. apply ev_here in L. apply dg_re. apply (proj1 (L s s' i Hi)); auto.
  - simpl. exists i. repeat split; auto; try lia; try discriminate. intros s' at' Hs.
    destruct H0 as [L _]. apply ev_here in L. apply dg_re_no. intros (e & v & Q). revert Q.
    apply (proj2 (L s s' i Hi)); auto.
    + intros e' v' Q. apply H. exists e', v'. exact Q.
    + intros k Hk. apply Hs. lia.
  - (* fmap *) specialize (IHdiag Hw Hi (ev_fmap _ _ _ _ _ _ Hc)). revert IHdiag.
    apply valid_ok; sub1.
    + intros u Hu. econstructor; eauto.
    + intros. eapply dg_fmap; eauto.
  - specialize (IHdiag Hw Hi (ev_fmap _ _ _ _ _ _ Hc)). revert IHdiag.
    apply valid_fail; sub1.
    + intros u v Hu. destruct (ev_here _ _ _ _ Hc _ _ Hu) as [v' Hv].
      exists [], v'. rewrite app_nil_r. econstructor; eauto.
    + intros. apply dg_fmap_fail. auto.
  - (* alt *) destruct Hw as [Hw1 Hw2]. specialize (IHdiag Hw1 Hi (ev_alt_l _ _ _ _ _ Hc)). revert IHdiag.
    apply valid_ok; sub1; intros; constructor; auto.
  - destruct Hw as [Hw1 Hw2]. specialize (IHdiag Hw1 Hi (ev_alt_l _ _ _ _ _ Hc)). revert IHdiag.
    apply valid_fail; sub1; intros; [|constructor; auto].
    exists [], v. rewrite app_nil_r. constructor; auto.
  - destruct Hw as [Hw1 Hw2]. specialize (IHdiag1 Hw1 Hi (ev_alt_l _ _ _ _ _ Hc)).
    specialize (IHdiag2 Hw2 Hi (ev_alt_r _ _ _ _ _ Hc)).
    pose proof (local_sub (GAlt p q) p (fun P => ev_alt_l E P A p q)) as Lp.
    pose proof (local_sub (GAlt p q) q (fun P => ev_alt_r E P A p q)) as Lq.
    destruct IHdiag1 as (r & K1 & K2 & K3 & K4 & K5).
    destruct o as [v k Y|b l' Y|e]; [| |exact I].
    + destruct IHdiag2 as (O1 & O2 & O3). split; [auto|]. split; [apply la_alt_r; auto|].
      intros L s' at' Hs. destruct (K5 (Lp L)) as [K6 K7]. specialize (K6 eq_refl). subst r.
      apply (dg_alt_r E s' at' A p q m i (at' i) X (DSucc v k Y)); auto.
      apply K7. eapply same_le; eauto. lia.
    + destruct IHdiag2 as (u & O1 & O2 & O3 & O4 & O5).
      destruct b; [exists u|exists r]; (split; [auto|]); (split; [auto|]); (split; [auto|]); split.
      * intros Hu. destruct (O4 Hu) as (w & v & Hv). exists w, v. apply la_alt_r. exact Hv.
      * intros L. split; [discriminate|]. intros s' at' Hs. destruct (K5 (Lp L)) as [K6 K7].
        specialize (K6 eq_refl). subst r.
        apply (dg_alt_r E s' at' A p q m i (at' i) X (DFail true (at' u) Y)); [|apply O5; auto].
        apply K7. eapply same_le; eauto. lia.
      * intros Hu. destruct (K4 Hu) as (w & v & Hv). exists w, v. apply la_alt_l. exact Hv.
      * intros L. destruct (K5 (Lp L)) as [K6 K7]. split; [auto|]. intros s' at' Hs.
        specialize (K6 eq_refl). subst r. destruct (O5 (Lq L)) as [O6 O7]. specialize (O6 eq_refl). subst u.
        apply (dg_alt_r E s' at' A p q m i (at' i) X (DFail false (at' i) Y)); auto.
  - (* bind *) destruct Hw as [Hw1 Hw2]. specialize (IHdiag1 Hw1 Hi (ev_bind_l _ _ _ _ _ _ Hc)).
    assert (Hj : j <= List.length s) by apply IHdiag1.
    specialize (IHdiag2 (Hw2 v) Hj (ev_bind_r _ _ _ _ _ _ v Hc)).
    replace (d_after i j X o) with (on_dvalue (fun x => x) (d_after i j X o)) by (destruct o as [| []|]; reflexivity).
    revert IHdiag1 IHdiag2. intros K1 K2. pose proof K1 as (_ & Kv & _).
    pose proof (ev_here _ _ _ _ Hc _ _ Kv) as Hx.
    revert K1 K2. apply valid_after; auto.
    + intros. eapply se_bind; eauto.
    + apply local_sub. sub1.
    + apply local_sub. sub1.
    + intros s' at' o' _ D1 D2.
      replace (on_dvalue (fun x => x) (d_after i j X o')) with (d_after i j X o') by (destruct o' as [| []|]; reflexivity).
      eapply dg_bind; eauto.
  - destruct Hw as [Hw1 Hw2]. specialize (IHdiag Hw1 Hi (ev_bind_l _ _ _ _ _ _ Hc)). revert IHdiag.
    apply valid_fail; sub1; intros; [|apply dg_bind_fail; auto].
    destruct (ev_here _ _ _ _ Hc _ _ H0) as (w' & v' & Hv). exists w', v'. eapply se_bind; eauto.
  - (* seq *) destruct Hw as [Hw1 Hw2]. specialize (IHdiag1 Hw1 Hi (ev_seq_l _ _ _ _ _ _ _ _ Hc)).
    assert (Hj : j <= List.length s) by apply IHdiag1.
    specialize (IHdiag2 Hw2 Hj (ev_seq_r _ _ _ _ _ _ _ _ Hc)).
    pose proof (ev_here _ _ _ _ Hc) as Hx.
    revert IHdiag1 IHdiag2. apply valid_after; auto.
    + intros. apply se_seq; auto.
    + apply local_sub. sub1.
    + apply local_sub. sub1.
    + intros s' at' o' _ D1 D2. eapply dg_seq; eauto.
  - destruct Hw as [Hw1 Hw2]. specialize (IHdiag Hw1 Hi (ev_seq_l _ _ _ _ _ _ _ _ Hc)). revert IHdiag.
    apply valid_fail; sub1; intros; [|apply dg_seq_fail; auto].
    destruct (ev_here _ _ _ _ Hc) as (w' & v' & Hv). exists w', (merge v v'). apply se_seq; auto.
  - (* maybe *) specialize (IHdiag Hw Hi (ev_maybe _ _ _ _ Hc)). revert IHdiag.
    apply valid_ok; sub1; intros; constructor; auto.
  - specialize (IHdiag Hw Hi (ev_maybe _ _ _ _ Hc)). destruct IHdiag as (q & K1 & K2 & K3 & K4 & K5).
    split; [lia|]. split; [rewrite slice_nil; constructor|]. intros L s' at' Hs.
    destruct K5 as [K6 K7]; [eapply local_sub; [|eassumption]; sub1|]. specialize (K6 eq_refl). subst q.
    eapply dg_maybe_none; eauto.
  - specialize (IHdiag Hw Hi (ev_maybe _ _ _ _ Hc)). revert IHdiag.
    apply valid_fail; sub1; intros; [|constructor; auto].
    exists [], (Some v). rewrite app_nil_r. constructor; auto.
  - (* many *) specialize (IHdiag1 Hw Hi (ev_many _ _ _ _ Hc)). destruct IHdiag1 as (K1 & K2 & K3).
    destruct (IHdiag2 (conj Hn Hw) (proj2 K1) Hc) as (O1 & O2 & O3).
    split; [lia|]. split; [rewrite <- (slice_app s i j k) by lia; apply se_many; auto|].
    intros L s' at' Hs. apply (dg_many_more E s' at' A p m i v j X l k Y); auto.
    apply K3; [eapply local_sub; [|eassumption]; sub1|eapply same_le; eauto; lia].
  - specialize (IHdiag1 Hw Hi (ev_many _ _ _ _ Hc)). destruct IHdiag1 as (K1 & K2 & K3).
    destruct (IHdiag2 (conj Hn Hw) (proj2 K1) Hc) as (q & O1 & O2 & O3 & O4 & O5).
    assert (Hv : viable E (GMany p) (slice s i q)).
    { destruct (Nat.eq_dec q j) as [->|Hq].
      - exists [], [v]. apply se_many; auto. constructor.
      - destruct O4 as (w' & v' & O4); [lia|]. exists w', (v :: v').
        rewrite <- (slice_app s i j q), <- app_assoc by lia. apply se_many; auto. }
    exists q. split; [auto|]. split; [lia|]. split; [lia|]. split; [auto|].
    intros L. destruct (O5 L) as [O6 O7]. split.
    + intros ->. apply many_commits in H1. discriminate.
    + intros s' at' Hs. apply (dg_many_more_fail E s' at' A p m i v j X b (at' q) Y); auto.
      apply K3; [eapply local_sub; [|eassumption]; sub1|eapply same_le; eauto; lia].
  - specialize (IHdiag Hw Hi (ev_many _ _ _ _ Hc)). destruct IHdiag as (q & K1 & K2 & K3 & K4 & K5).
    split; [lia|]. split; [rewrite slice_nil; constructor|]. intros L s' at' Hs.
    destruct K5 as [K6 K7]; [eapply local_sub; [|eassumption]; sub1|]. specialize (K6 eq_refl). subst q.
    eapply dg_many_stop; eauto.
  - specialize (IHdiag Hw Hi (ev_many _ _ _ _ Hc)). revert IHdiag.
    apply valid_fail; sub1; intros; [|apply dg_many_fail; auto].
    exists [], [v]. apply se_many; auto. constructor.
  - (* attempt *) specialize (IHdiag Hw Hi (ev_attempt _ _ _ _ Hc)). revert IHdiag.
    apply valid_ok; sub1; intros; constructor; auto.
  - specialize (IHdiag Hw Hi (ev_attempt _ _ _ _ Hc)). revert IHdiag.
    apply valid_fail; sub1; try discriminate.
    + intros w v Hs. exists [], v. rewrite app_nil_r. constructor; auto.
    + intros. eapply dg_attempt_fail; eauto.
    + intros [L _]. apply ev_here in L. destruct L.
  - (* label *) specialize (IHdiag Hw Hi (ev_label _ _ _ _ _ Hc)).
    destruct o as [v j X|b l X|e]; [| |exact I].
    + revert IHdiag. apply valid_ok; sub1; intros; [constructor; auto|].
      eapply (dg_label E s' at' A p x m i (DSucc v j X)); auto.
    + replace (d_label i x (DFail b l X)) with (DFail (A:=A) b l (if b then X else [x])) by (destruct b; reflexivity).
      revert IHdiag. apply valid_fail; sub1; intros.
      * exists [], v. rewrite app_nil_r. constructor; auto.
      * apply (dg_label E s' at' A p x m i) in H1. destruct b; exact H1.
  - specialize (IHdiag Hw Hi (ev_recover _ _ _ _ Hc)). revert IHdiag.
    apply valid_wrap; sub1; intros; constructor; auto.
  - specialize (IHdiag Hw Hi (ev_with _ _ _ _ _ _ Hc)). revert IHdiag.
    apply valid_wrap; sub1; intros; constructor; auto.
  - specialize (IHdiag Hw Hi (ev_withfn _ _ _ _ _ _ Hc)). revert IHdiag.
    apply valid_wrap; sub1; intros; constructor; auto.
  - specialize (IHdiag Hw Hi (ev_block _ _ _ _ Hc)). revert IHdiag.
    apply valid_wrap; sub1; [intros; constructor; auto|].
    intros [_ L]. apply ev_here in L. destruct L. exact I.
  - specialize (IHdiag Hw Hi (ev_aligned _ _ _ _ Hc)). revert IHdiag.
    apply valid_wrap; sub1; [intros; constructor; auto|].
    intros [_ L]. apply ev_here in L. destruct L. exact I.
  - exists i. split; [auto|]. split; [lia|]. split; [discriminate|]. split; [lia|].
    intros [_ L]. apply ev_here in L. destruct L. exact I.
  - specialize (IHdiag Hw Hi (ev_indented _ _ _ _ _ Hc)). revert IHdiag.
    apply valid_wrap; sub1; [intros; constructor; auto|].
    intros [_ L]. apply ev_here in L. destruct L. exact I.
  - exists i. split; [auto|]. split; [lia|]. split; [discriminate|]. split; [lia|].
    intros [_ L]. apply ev_here in L. destruct L. exact I.
  - specialize (IHdiag (HE d) Hi (ev_delay _ _ _ Hc)). revert IHdiag.
    apply valid_wrap; sub1; intros; constructor; auto.
Qed.
End Valid.

(** ** Prediction: LL(1) parsers read every sentence *)
Section Predict.
Context {T : Type} {V : nat -> Type}.
Variable E : env T V.
Notation gram := (gram T V).
Hypothesis HE : wf_env E.
Notation compl := (everywhere E (completable_node E)).

Lemma slice_head (s : list T) i j : i < j -> j <= List.length s ->
  exists t w, slice s i j = t :: w /\ nth_error s i = Some t.
Proof.
  intros Hij Hj. destruct (nth_error s i) as [t|] eqn:Ht.
  - destruct (skipn_nth s i t Ht) as [l Hl]. exists t. unfold slice. rewrite Hl.
    destruct (j - i) as [|k] eqn:Hk; [lia|]. simpl. eauto.
  - apply nth_error_None in Ht. lia.
Qed.
Lemma hd_skipn (s : list T) i : hd_error (skipn i s) = nth_error s i.
Proof.
  revert s. induction i as [|i IH]; intros [|x s]; simpl; auto.
Qed.

Lemma predict s at_ A (p : gram A) m i o :
  diag E s at_ A p m i o -> wf p -> i <= List.length s -> compl p ->
  ~ nullable E p -> ~ first_is E p (nth_error s i) ->
  (exists l X, o = DFail false l X) \/ exists e, o = DExn e.
Proof.
  intros H Hw Hi Hc Hn Hf. apply diag_valid in H; auto.
  destruct o as [v j X|[] l X|e]; simpl in H; eauto; exfalso.
  - destruct H as (H1 & H2 & _). destruct (Nat.eq_dec i j) as [->|Hij].
    + rewrite slice_nil in H2. apply Hn. exists v. exact H2.
    + destruct (slice_head s i j) as (t & w & Hs & Ht); [lia|lia|]. rewrite Hs in H2.
      apply Hf. rewrite Ht. exists w, v. exact H2.
  - destruct H as (q & _ & H2 & H3 & H4 & _). specialize (H3 eq_refl).
    destruct (H4 H3) as (w' & v & H5).
    destruct (slice_head s i q) as (t & w & Hs & Ht); [lia|lia|]. rewrite Hs in H5.
    apply Hf. rewrite Ht. exists (w ++ w'), v. exact H5.
Qed.

(** [success] of the expected value and length, or an exception *)
Definition reads {A} (i : nat) (w : list T) (v : A) (o : dres A) : Prop :=
  (exists X, o = DSucc v (i + List.length w) X) \/ exists e, o = DExn e.

Lemma reads_succ A i w (v : A) j X : j = i + List.length w -> reads i w v (DSucc v j X).
Proof. intros ->. left. eauto. Qed.
Lemma Forall2_len {X Y} (R : X -> Y -> Prop) a b : Forall2 R a b -> List.length a = List.length b.
Proof. induction 1; simpl; auto. Qed.
Lemma starts_hd A (q : gram A) (K : option T -> Prop) w rest v :
  sentence E q w v -> K (hd_error rest) -> starts E q K (hd_error (w ++ rest)).
Proof.
  intros H HK. destruct w as [|t w]; [right|left]; simpl.
  - split; auto. exists v. exact H.
  - exists w, v. exact H.
Qed.
Lemma skipn_next (s : list T) i w rest :
  i <= List.length s -> skipn i s = w ++ rest -> skipn (i + List.length w) s = rest /\ i + List.length w <= List.length s.
Proof.
  intros Hi H. split.
  - rewrite <- skipn_skipn, H, skipn_app, skipn_all, Nat.sub_diag. reflexivity.
  - apply (f_equal (@List.length T)) in H. rewrite skipn_length, app_length in H. lia.
Qed.
Lemma prefix_of_forall2 (teq : T -> T -> bool) x w rest :
  Forall2 (fun a b => teq a b = true) w x -> is_prefix teq x (w ++ rest) = true.
Proof. induction 1; simpl; auto. rewrite H. auto. Qed.

Variable F : nat -> option T -> Prop.
Hypothesis HF : forall d, ll1 E F (E d) (F d).

Ltac win := apply reads_succ; simpl; lia.
Ltac lose IH := let X := fresh in let e := fresh in let K := fresh in
  destruct IH as [[X K]|[e K]]; discriminate.

Lemma ll1_reads s at_ A (g : gram A) m i o :
  diag E s at_ A g m i o -> wf g -> i <= List.length s -> compl g ->
  forall K w rest v, ll1 E F g K -> skipn i s = w ++ rest -> K (hd_error rest) ->
  sentence E g w v -> reads i w v o.
Proof.
  intros H. induction H; intros Hw Hi Hc K w0 rest u HL Hs HK Hu;
    try (right; eauto; fail); pose proof (sent_inv _ _ _ _ _ Hu) as Hm; cbn in HL, Hm.
  all: try (destruct Hw as [Hn Hw]).
  - destruct Hm as [-> ->]. simpl. win.
  - destruct Hm as [-> Hm]. replace u with v by congruence. simpl. win.
  - destruct Hm.
  - subst w0. destruct u. simpl. win.
  - subst w0. exfalso. apply H. simpl in Hs. rewrite <- Hs in HK. rewrite hd_skipn in HK.
    apply HL in HK. apply nth_error_None in HK. lia.
  - destruct Hm as [-> Hm]. rewrite <- (hd_skipn s i), Hs in H. simpl in H. injection H as <-. win.
  - destruct Hm as [-> Hm]. rewrite <- (hd_skipn s i), Hs in H. simpl in H. congruence.
  - destruct Hm as [-> Hm]. rewrite <- (hd_skipn s i), Hs in H. discriminate.
  - destruct Hm as [-> Hm]. rewrite <- (hd_skipn s i), Hs in H. simpl in H. injection H as <-. win.
  - destruct Hm as [-> Hm]. rewrite <- (hd_skipn s i), Hs in H. specialize (H u eq_refl). congruence.
  - destruct Hm as [-> Hm]. apply Forall2_len in Hm. left. eexists. rewrite Hm. reflexivity.
  - destruct Hm as [-> Hm]. change (is_prefix teq x (skipn i s) = false) in H. rewrite Hs, prefix_of_forall2 in H by auto. discriminate.
  - specialize (HL (firstn i s) w0 rest u Hu HK). rewrite <- Hs, firstn_skipn, firstn_length, Nat.min_l in HL by lia.
    rewrite HL in H. injection H as <- <-. win.
  - exfalso. apply H. specialize (HL (firstn i s) w0 rest u Hu HK).
    rewrite <- Hs, firstn_skipn, firstn_length, Nat.min_l in HL by lia. do 2 eexists. exact HL.
  - (* fmap *) destruct Hm as (v0 & Hm & Hf).
    destruct (IHdiag Hw Hi (ev_fmap _ _ _ _ _ _ Hc) K w0 rest v0 HL Hs HK Hm) as [[Y HY]|[e HY]]; [|discriminate].
    injection HY as <- -> <-. replace w with u by congruence. win.
  - destruct Hm as (v0 & Hm & Hf).
    destruct (IHdiag Hw Hi (ev_fmap _ _ _ _ _ _ Hc) K w0 rest v0 HL Hs HK Hm) as [[Y HY]|[e HY]]; discriminate.
  - (* alt *) destruct Hw as [Hw1 Hw2]. destruct HL as (L1 & L2 & L3 & L4). pose proof (ev_alt_l _ _ _ _ _ Hc) as Hc1.
    destruct Hm as [Hm|Hm].
    + exact (IHdiag Hw1 Hi Hc1 K w0 rest u L1 Hs HK Hm).
    + exfalso. destruct (predict _ _ _ _ _ _ _ H Hw1 Hi Hc1 L3) as [(l & Y & HY)|[e HY]]; try discriminate.
      intros Hf. apply (L4 _ Hf). rewrite <- hd_skipn, Hs. eapply starts_hd; eauto.
  - destruct Hw as [Hw1 Hw2]. destruct HL as (L1 & L2 & L3 & L4). pose proof (ev_alt_l _ _ _ _ _ Hc) as Hc1.
    destruct Hm as [Hm|Hm].
    + exact (IHdiag Hw1 Hi Hc1 K w0 rest u L1 Hs HK Hm).
    + exfalso. destruct (predict _ _ _ _ _ _ _ H Hw1 Hi Hc1 L3) as [(l' & Y & HY)|[e HY]]; try discriminate.
      intros Hf. apply (L4 _ Hf). rewrite <- hd_skipn, Hs. eapply starts_hd; eauto.
  - destruct Hw as [Hw1 Hw2]. destruct HL as (L1 & L2 & L3 & L4). pose proof (ev_alt_l _ _ _ _ _ Hc) as Hc1.
    destruct Hm as [Hm|Hm].
    + pose proof (IHdiag1 Hw1 Hi Hc1 K w0 rest u L1 Hs HK Hm) as R. lose R.
    + destruct (IHdiag2 Hw2 Hi (ev_alt_r _ _ _ _ _ Hc) K w0 rest u L2 Hs HK Hm) as [[Y ->]|[e ->]]; [|right; eexists; reflexivity].
      left. simpl. eexists. reflexivity.
  - (* bind *) destruct Hw as [Hw1 Hw2]. destruct HL as (L1 & L2).
    destruct Hm as (w1 & w2 & v0 & -> & Hm1 & Hm2). rewrite <- app_assoc in Hs.
    destruct (IHdiag1 Hw1 Hi (ev_bind_l _ _ _ _ _ _ Hc) _ w1 (w2 ++ rest) v0 L1 Hs) as [[Y HY]|[e HY]]; auto; try discriminate.
    { exists w1, v0. split; [auto|]. eapply starts_hd; eauto. }
    injection HY as -> -> <-. destruct (skipn_next _ _ _ _ Hi Hs) as [Hs' Hi'].
    destruct (IHdiag2 (Hw2 v0) Hi' (ev_bind_r _ _ _ _ _ _ v0 Hc) K w2 rest u (L2 _ _ Hm1) Hs' HK Hm2) as [[Z ->]|[e ->]];
      [|right; eexists; reflexivity].
    left. simpl. rewrite app_length, Nat.add_assoc. eexists. reflexivity.
  - destruct Hw as [Hw1 Hw2]. destruct HL as (L1 & L2).
    destruct Hm as (w1 & w2 & v0 & -> & Hm1 & Hm2). rewrite <- app_assoc in Hs.
    destruct (IHdiag Hw1 Hi (ev_bind_l _ _ _ _ _ _ Hc) _ w1 (w2 ++ rest) v0 L1 Hs) as [[Y HY]|[e HY]]; auto; try discriminate.
    exists w1, v0. split; [auto|]. eapply starts_hd; eauto.
  - (* seq *) destruct Hw as [Hw1 Hw2]. destruct HL as (L1 & L2).
    destruct Hm as (w1 & w2 & v1 & v2 & -> & -> & Hm1 & Hm2). rewrite <- app_assoc in Hs.
    destruct (IHdiag1 Hw1 Hi (ev_seq_l _ _ _ _ _ _ _ _ Hc) _ w1 (w2 ++ rest) v1 L1 Hs) as [[Y HY]|[e HY]]; auto; try discriminate.
    { eapply starts_hd; eauto. }
    injection HY as -> -> <-. destruct (skipn_next _ _ _ _ Hi Hs) as [Hs' Hi'].
    destruct (IHdiag2 Hw2 Hi' (ev_seq_r _ _ _ _ _ _ _ _ Hc) K w2 rest v2 L2 Hs' HK Hm2) as [[Z ->]|[e ->]];
      [|right; eexists; reflexivity].
    left. simpl. rewrite app_length, Nat.add_assoc. eexists. reflexivity.
  - destruct Hw as [Hw1 Hw2]. destruct HL as (L1 & L2).
    destruct Hm as (w1 & w2 & v1 & v2 & -> & -> & Hm1 & Hm2). rewrite <- app_assoc in Hs.
    destruct (IHdiag Hw1 Hi (ev_seq_l _ _ _ _ _ _ _ _ Hc) _ w1 (w2 ++ rest) v1 L1 Hs) as [[Y HY]|[e HY]]; auto; try discriminate.
    eapply starts_hd; eauto.
  - (* maybe *) destruct HL as (L1 & L2 & L3). pose proof (ev_maybe _ _ _ _ Hc) as Hc1.
    destruct Hm as [[-> ->]|(v0 & -> & Hm)].
    + exfalso. destruct (predict _ _ _ _ _ _ _ H Hw Hi Hc1 L2) as [(l' & Y & HY)|[e HY]]; try discriminate.
      intros Hf. apply (L3 _ Hf). rewrite <- hd_skipn, Hs. exact HK.
    + destruct (IHdiag Hw Hi Hc1 K w0 rest v0 L1 Hs HK Hm) as [[Y HY]|[e HY]]; [|discriminate].
      injection HY as <- -> <-. win.
  - destruct HL as (L1 & L2 & L3). pose proof (ev_maybe _ _ _ _ Hc) as Hc1.
    destruct Hm as [[-> ->]|(v0 & -> & Hm)]; [simpl; win|].
    pose proof (IHdiag Hw Hi Hc1 K w0 rest v0 L1 Hs HK Hm) as R. lose R.
  - destruct HL as (L1 & L2 & L3). pose proof (ev_maybe _ _ _ _ Hc) as Hc1.
    destruct Hm as [[-> ->]|(v0 & -> & Hm)].
    + exfalso. destruct (predict _ _ _ _ _ _ _ H Hw Hi Hc1 L2) as [(l' & Y & HY)|[e HY]]; try discriminate.
      intros Hf. apply (L3 _ Hf). rewrite <- hd_skipn, Hs. exact HK.
    + pose proof (IHdiag Hw Hi Hc1 K w0 rest v0 L1 Hs HK Hm) as R. lose R.
  - (* many *) pose proof HL as (L1 & L2 & L3). pose proof (ev_many _ _ _ _ Hc) as Hc1.
    destruct Hm as [[-> ->]|(w1 & w2 & v1 & l1 & -> & -> & Hm1 & Hm2)].
    + exfalso. destruct (predict _ _ _ _ _ _ _ H0 Hw Hi Hc1 L2) as [(l' & Z & HY)|[e HY]]; try discriminate.
      intros Hf. apply (L3 _ Hf). rewrite <- hd_skipn, Hs. exact HK.
    + rewrite <- app_assoc in Hs.
      destruct (IHdiag1 Hw Hi Hc1 _ w1 (w2 ++ rest) v1 L1 Hs) as [[Z HZ]|[e HZ]]; auto; try discriminate.
      { pose proof (starts_hd _ _ K w2 rest l1 Hm2 HK) as [S|[_ S]]; [left|right; exact S].
        destruct (hd_error (w2 ++ rest)) as [t|]; [|destruct S]. destruct S as (w' & v' & S). simpl.
        apply sent_inv in S. destruct S as [[S _]|(a & b & x & y & S1 & _ & S2 & _)]; [discriminate|].
        destruct a as [|t' a]; [destruct L2; exists x; exact S2|]. injection S1 as -> _. exists a, x. exact S2. }
      injection HZ as -> -> <-. destruct (skipn_next _ _ _ _ Hi Hs) as [Hs' Hi'].
      destruct (IHdiag2 (conj Hn Hw) Hi' Hc K w2 rest l1 HL Hs' HK Hm2) as [[Z' HZ]|[e HZ]]; [|discriminate].
      injection HZ as -> -> <-. left. rewrite app_length, Nat.add_assoc. eexists. reflexivity.
  - pose proof HL as (L1 & L2 & L3). pose proof (ev_many _ _ _ _ Hc) as Hc1.
    destruct Hm as [[-> ->]|(w1 & w2 & v1 & l1 & -> & -> & Hm1 & Hm2)].
    + exfalso. destruct (predict _ _ _ _ _ _ _ H0 Hw Hi Hc1 L2) as [(l' & Z & HY)|[e HY]]; try discriminate.
      intros Hf. apply (L3 _ Hf). rewrite <- hd_skipn, Hs. exact HK.
    + rewrite <- app_assoc in Hs.
      destruct (IHdiag1 Hw Hi Hc1 _ w1 (w2 ++ rest) v1 L1 Hs) as [[Z HZ]|[e HZ]]; auto; try discriminate.
      { pose proof (starts_hd _ _ K w2 rest l1 Hm2 HK) as [S|[_ S]]; [left|right; exact S].
        destruct (hd_error (w2 ++ rest)) as [t|]; [|destruct S]. destruct S as (w' & v' & S). simpl.
        apply sent_inv in S. destruct S as [[S _]|(a & b' & x & y & S1 & _ & S2 & _)]; [discriminate|].
        destruct a as [|t' a]; [destruct L2; exists x; exact S2|]. injection S1 as -> _. exists a, x. exact S2. }
      injection HZ as -> -> <-. destruct (skipn_next _ _ _ _ Hi Hs) as [Hs' Hi'].
      pose proof (IHdiag2 (conj Hn Hw) Hi' Hc K w2 rest l1 HL Hs' HK Hm2) as R. lose R.
  - pose proof HL as (L1 & L2 & L3). pose proof (ev_many _ _ _ _ Hc) as Hc1.
    destruct Hm as [[-> ->]|(w1 & w2 & v1 & l1 & -> & -> & Hm1 & Hm2)]; [simpl; win|].
    rewrite <- app_assoc in Hs.
    assert (R : reads i w1 v1 (DFail false l X)).
    { apply (IHdiag Hw Hi Hc1 _ w1 (w2 ++ rest) v1 L1 Hs); auto.
      pose proof (starts_hd _ _ K w2 rest l1 Hm2 HK) as [S|[_ S]]; [left|right; exact S].
      destruct (hd_error (w2 ++ rest)) as [t|]; [|destruct S]. destruct S as (w' & v' & S). simpl.
      apply sent_inv in S. destruct S as [[S _]|(a & b' & x & y & S1 & _ & S2 & _)]; [discriminate|].
      destruct a as [|t' a]; [destruct L2; exists x; exact S2|]. injection S1 as -> _. exists a, x. exact S2. }
    lose R.
  - pose proof HL as (L1 & L2 & L3). pose proof (ev_many _ _ _ _ Hc) as Hc1.
    destruct Hm as [[-> ->]|(w1 & w2 & v1 & l1 & -> & -> & Hm1 & Hm2)].
    { exfalso. destruct (predict _ _ _ _ _ _ _ H Hw Hi Hc1 L2) as [(l' & Z & HY)|[e HY]]; try discriminate.
      intros Hf. apply (L3 _ Hf). rewrite <- hd_skipn, Hs. exact HK. }
    rewrite <- app_assoc in Hs.
    assert (R : reads i w1 v1 (DFail true l X)).
    { apply (IHdiag Hw Hi Hc1 _ w1 (w2 ++ rest) v1 L1 Hs); auto.
      pose proof (starts_hd _ _ K w2 rest l1 Hm2 HK) as [S|[_ S]]; [left|right; exact S].
      destruct (hd_error (w2 ++ rest)) as [t|]; [|destruct S]. destruct S as (w' & v' & S). simpl.
      apply sent_inv in S. destruct S as [[S _]|(a & b' & x & y & S1 & _ & S2 & _)]; [discriminate|].
      destruct a as [|t' a]; [destruct L2; exists x; exact S2|]. injection S1 as -> _. exists a, x. exact S2. }
    lose R.
  - (* attempt *) exact (IHdiag Hw Hi (ev_attempt _ _ _ _ Hc) K w0 rest u HL Hs HK Hm).
  - assert (R : reads i w0 u (DFail b l X)) by exact (IHdiag Hw Hi (ev_attempt _ _ _ _ Hc) K w0 rest u HL Hs HK Hm). lose R.
  - (* label *) assert (R : reads i w0 u o) by exact (IHdiag Hw Hi (ev_label _ _ _ _ _ Hc) K w0 rest u HL Hs HK Hm).
    destruct R as [[Y ->]|[e ->]]; [left|right]; simpl; eexists; reflexivity.
  - exact (IHdiag Hw Hi (ev_recover _ _ _ _ Hc) K w0 rest u HL Hs HK Hm).
  - exact (IHdiag Hw Hi (ev_with _ _ _ _ _ _ Hc) K w0 rest u HL Hs HK Hm).
  - exact (IHdiag Hw Hi (ev_withfn _ _ _ _ _ _ Hc) K w0 rest u HL Hs HK Hm).
  - destruct HL.
  - destruct HL.
  - destruct HL.
  - destruct HL.
  - destruct HL.
  - (* delay *) eapply (IHdiag (HE d) Hi (ev_delay _ _ _ Hc) (F d)); eauto.
Qed.
End Predict.
