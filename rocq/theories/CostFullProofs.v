(** The number of calls of a recovering run: proofs. *)
From Verif Require Export CostFull CostProofs Simulation.

Section EraseFull.
Context {T : Type}.
Definition erasesr {A} (p : pcostr T A) (q : pfull T A) : Prop :=
  forall s pos c ins rem, snd (p s pos c ins rem) = q s pos c ins rem.
Lemma cflat_erases {A B} (f : A -> cm (list B)) g l : (forall a, snd (f a) = g a) ->
  snd (cflat_map f l) = flat_mapM g l.
Proof.
  intros H. induction l as [|a l IH]; [reflexivity|]. simpl. apply snd_bind; [apply H|]. intros y.
  apply snd_bind; [apply IH|reflexivity].
Qed.
Lemma continue_erases {A B C} (ra : recr T A) ins (f : A -> nat -> ctx T -> Z -> cm (res T B)) g (merge : A -> B -> C) :
  (forall v p c r, snd (f v p c r) = g v p c r) ->
  snd (continue_cost ra ins f merge) = continue_parse ra ins g merge.
Proof.
  intros H. unfold continue_cost, continue_parse. apply snd_bind; [|reflexivity].
  apply cflat_erases. intros a. unfold cont_one_cost, cont_one. apply snd_bind; [apply H|].
  intros [o|e|r]; reflexivity.
Qed.
Lemma manyr_erases {A} (p : pcostr T A) q : erasesr p q -> forall n b vs s pos c ins,
  snd (many_costr p n b vs s pos c ins) = many_full q n b vs s pos c ins.
Proof.
  intros H. induction n as [|n IH]; intros b vs s pos c ins; [reflexivity|]. simpl.
  apply snd_bind; [apply H|]. intros [o|e|r].
  - destruct (ok_con o); [apply IH|reflexivity].
  - destruct (er_con e); reflexivity.
  - apply continue_erases. intros. apply IH.
Qed.
Context {V : nat -> Type}.
Variable E : env T V.
Theorem cfull_full n : forall A (g : gram T V A), erasesr (cfull E n g) (full E n g).
Proof.
  induction n as [|n IH]; intros A g s pos c ins rem; [reflexivity|].
  cbn [cfull full tick snd].
  destruct g; try reflexivity.
  - unfold fmap_costr, fmap_full. apply snd_bind; [apply IH|reflexivity].
  - unfold alt_costr, alt_full. apply snd_bind; [apply IH|].
    assert (R : forall la x, snd (alt_recover_cost (cfull E n g1) (cfull E n g2) la x s pos c ins rem) =
      alt_recover (full E n g1) (full E n g2) la x s pos c ins rem).
    { intros la x. unfold alt_recover_cost, alt_recover. destruct rem; [|reflexivity].
      apply snd_bind; [apply IH|]. intros a. apply snd_bind; [apply IH|]. intros b.
      destruct a, b; reflexivity. }
    intros [o|[la xa ca]|[reps mn la xa ca]]; [reflexivity| |];
      (destruct ca; [reflexivity|]; apply snd_bind; [apply IH|]; intros b;
       destruct (res_con b); [reflexivity|]; destruct b; [reflexivity| |]; apply R).
  - unfold bind_costr, bind_full. apply snd_bind; [apply IH|]. intros [o|e|r]; [|reflexivity|].
    + destruct (ok_con o); (apply snd_bind; [apply IH|reflexivity]).
    + apply continue_erases. intros. apply IH.
  - unfold seq_costr, seq_full. apply snd_bind; [apply IH|]. intros [o|e|r]; [|reflexivity|].
    + apply snd_bind; [apply IH|reflexivity].
    + apply continue_erases. intros. apply IH.
  - unfold maybe_costr, maybe_full. apply snd_bind; [apply IH|reflexivity].
  - apply manyr_erases, IH.
  - unfold attempt_costr, attempt_full. destruct rem; [apply IH|]. apply snd_bind; [apply cfast_fast|]. intros [o|e]; reflexivity.
  - unfold label_costr, label_full. apply snd_bind; [apply IH|reflexivity].
  - unfold recover_costr, recover_full. apply snd_bind; [apply IH|reflexivity].
  - unfold recover_with_costr, recover_with_full. destruct rem; [|apply IH]. apply snd_bind; [apply IH|reflexivity].
  - unfold recover_with_costr, recover_with_full. destruct rem; [|apply IH]. apply snd_bind; [apply IH|reflexivity].
  - unfold block_costr, block_full. apply snd_bind; [apply IH|reflexivity].
  - unfold aligned_costr, aligned_full. destruct (Z.eqb _ _); [apply IH|reflexivity].
  - unfold indented_costr, indented_full. destruct (Z.eqb _ _); [|reflexivity]. apply snd_bind; [apply IH|reflexivity].
  - apply IH.
Qed.
End EraseFull.

(** ** recover, recover_with and recover_with_fn replaced by a parser that only calls
    its argument *)
Section Traced.
Context {T : Type} {V : nat -> Type}.
Notation gram := (gram T V).
Fixpoint traced {A} (g : gram A) : gram A :=
  match g in Grammar.gram _ _ A return gram A with
  | GFmap p f => GFmap (traced p) f
  | GAlt p q => GAlt (traced p) (traced q)
  | GBind p f => GBind (traced p) (fun v => traced (f v))
  | GSeq p q merge => GSeq (traced p) (traced q) merge
  | GMaybe p => GMaybe (traced p)
  | GMany p => GMany (traced p)
  | GAttempt p => GAttempt (traced p)
  | GLabel p x => GLabel (traced p) x
  | GRecover p => GFmap (traced p) Ret
  | GRecoverWith p _ _ => GFmap (traced p) Ret
  | GRecoverWithFn p _ _ => GFmap (traced p) Ret
  | GBlock p => GBlock (traced p)
  | GAligned p => GAligned (traced p)
  | GIndented d p => GIndented d (traced p)
  | g => g
  end.
Definition tracedE (E : env T V) : env T V := fun d => traced (E d).
Variable E : env T V.

Definition near {A} (ex : Prop) (m m' : cm A) : Prop := snd m' = snd m /\ fst m <= fst m' /\ (ex -> fst m = fst m').
Lemma near_refl {A} ex (m : cm A) : near ex m m.
Proof. repeat split; auto. Qed.
Lemma near_bind {A B} ex (m m' : cm A) (f f' : A -> cm B) : near ex m m' -> (forall a, near ex (f a) (f' a)) ->
  near ex (cbind m f) (cbind m' f').
Proof.
  intros (H1 & H2 & H3) Hf. unfold near, cbind. rewrite H1. destruct (snd m); simpl; auto.
  destruct (Hf a) as (F1 & F2 & F3). split; auto. split; [lia|]. intros X. rewrite H3, F3; auto.
Qed.
Lemma near_tick {A} ex (m m' : cm A) : near ex m m' -> near ex (tick m) (tick m').
Proof. intros (H1 & H2 & H3). unfold near, tick. simpl. split; auto. split; [lia|]. intros X. rewrite H3; auto. Qed.
Lemma near_many {A} ex (p p' : pcost T A) : (forall s pos c, near ex (p s pos c) (p' s pos c)) ->
  forall n b vs s pos c, near ex (many_cost p n b vs s pos c) (many_cost p' n b vs s pos c).
Proof.
  intros H. induction n as [|n IH]; intros b vs s pos c; [apply near_refl|]. simpl. apply near_bind; auto.
  intros [o|e]; [destruct (ok_con o); [apply IH|apply near_refl]|apply near_refl].
Qed.
Lemma near_sub {A} (ex ex' : Prop) (m m' : cm A) : (ex' -> ex) -> near ex m m' -> near ex' m m'.
Proof. intros H (H1 & H2 & H3). repeat split; auto. Qed.

Lemma traced_near n : forall A (g : gram A) s pos c,
  near (no_recover g /\ forall d, no_recover (E d)) (cfast E n g s pos c) (cfast (tracedE E) n (traced g) s pos c).
Proof.
  induction n as [|n IH]; intros A g s pos c; [apply near_refl|].
  assert (HR : forall B (p : gram B) (ex : Prop) s pos c, (ex -> False) ->
    near ex (cfast E n p s pos c) (tick (fmap_cost (cfast (tracedE E) n (traced p)) Ret s pos c))).
  { intros B p ex s0 pos0 c0 Hex. destruct (IH B p s0 pos0 c0) as (H1 & H2 & _). unfold near, tick, fmap_cost, cbind. rewrite H1.
    cbn [fst snd]. destruct (snd (cfast E n p s0 pos0 c0)) as [[o|e]|e|]; cbn [fst snd cret sres_fmap ok_fmap obind];
      (split; [try (destruct o); reflexivity|split; [lia|intros X; destruct (Hex X)]]). }
  destruct g as [A x|A f|A l| |test|teq x l|teq x l|A m|A B p f|A p q|A B p f|A B C p q merge|A p|A p|A p|A p x|A p|A p x l|A p fn lab|A p|A p|A delta p|d|A];
    cbn [cfast traced]; try apply near_refl.
  - apply near_tick, near_bind; [|intros; apply near_refl]. eapply near_sub; [|apply IH]. intros [[_ H] H']; auto.
  - apply near_tick, near_bind; [eapply near_sub; [|apply IH]; intros [[_ [H _]] H']; auto|].
    intros [o|e]; [apply near_refl|]. destruct (er_con e); [apply near_refl|].
    apply near_bind; [eapply near_sub; [|apply IH]; intros [[_ [_ H]] H']; auto|]. intros. apply near_refl.
  - apply near_tick, near_bind; [eapply near_sub; [|apply IH]; intros [[_ [H _]] H']; auto|].
    intros [o|e]; [|apply near_refl].
    apply near_bind; [eapply near_sub; [|apply IH]; intros [[_ [_ H]] H']; split; auto; apply H|]. intros. apply near_refl.
  - apply near_tick, near_bind; [eapply near_sub; [|apply IH]; intros [[_ [H _]] H']; auto|].
    intros [o|e]; [|apply near_refl].
    apply near_bind; [eapply near_sub; [|apply IH]; intros [[_ [_ H]] H']; auto|]. intros. apply near_refl.
  - apply near_tick, near_bind; [|intros; apply near_refl]. eapply near_sub; [|apply IH]. intros [[_ H] H']; auto.
  - apply near_tick, near_many. intros. eapply near_sub; [|apply IH]. intros [[_ H] H']; auto.
  - apply near_tick, near_bind; [|intros; apply near_refl]. eapply near_sub; [|apply IH]. intros [[_ H] H']; auto.
  - apply near_tick, near_bind; [|intros; apply near_refl]. eapply near_sub; [|apply IH]. intros [[_ H] H']; auto.
  - apply HR. intros [[H _] _]. apply H. exact I.
  - apply HR. intros [[H _] _]. apply H. exact I.
  - apply HR. intros [[H _] _]. apply H. exact I.
  - apply near_tick, near_bind; [|intros; apply near_refl]. eapply near_sub; [|apply IH]. intros [[_ H] H']; auto.
  - apply near_tick. unfold aligned_cost. cbv zeta. destruct (Z.eqb _ _); [|apply near_refl].
    eapply near_sub; [|apply IH]. intros [[_ H] H']; auto.
  - apply near_tick. unfold indented_cost. cbv zeta. destruct (Z.eqb _ _); [|apply near_refl].
    apply near_bind; [|intros; apply near_refl]. eapply near_sub; [|apply IH]. intros [[_ H] H']; auto.
  - apply near_tick. eapply near_sub; [|apply IH]. intros [_ H]; auto.
Qed.
End Traced.

(** ** A run that ends well costs the same with recovery *)
Section Cheap.
Context {T : Type} {V : nat -> Type}.
Notation gram := (gram T V).
Variable E : env T V.
Definition cheap {A} (rem : option Z) (m m' : cm (sres T A)) (M : cm (res T A)) : Prop :=
  match snd m with
  | Ret (SErr e) => rem = None -> er_con e = false -> fst m <= fst M <= fst m'
  | _ => fst m <= fst M <= fst m'
  end.
(** everything known about the three runs *)
Definition trio {A} (rem : option Z) (m m' : cm (sres T A)) (M : cm (res T A)) : Prop :=
  cheap rem m m' M /\ sim rem (snd m) (snd M) /\ snd m' = snd m.
Lemma cheap_tick {A} rem (m m' : cm (sres T A)) M : cheap rem m m' M -> cheap rem (tick m) (tick m') (tick M).
Proof. unfold cheap, tick. simpl. destruct (snd m) as [[o|e]|e|]; intuition lia. Qed.
(** one call, then some computation *)
Lemma cheap_one {A B} rem (m m' : cm (sres T A)) M (f : sres T A -> out (sres T B)) (h : res T A -> out (res T B)) :
  trio rem m m' M ->
  (forall e, match f (SErr e) with Ret (SErr e') => er_con e' = er_con e | _ => False end) ->
  cheap rem (cbind m (fun x => cret (f x))) (cbind m' (fun x => cret (f x))) (cbind M (fun x => cret (h x))).
Proof.
  intros (H1 & H2 & H3) Hf. unfold cheap, cbind in *. rewrite H3. destruct (snd m) as [[o|e]|e|]; simpl in H2.
  - rewrite H2. simpl. destruct (f (SOk o)) as [[|]| |]; simpl; lia.
  - specialize (Hf e). cbn [fst snd cret]. destruct (f (SErr e)) as [[|e']| |]; try contradiction. intros -> Hc.
    rewrite Hf in Hc. specialize (H1 eq_refl Hc). rewrite Hc in H2. rewrite H2. simpl. lia.
  - rewrite H2. simpl. lia.
  - rewrite H2. simpl. lia.
Qed.
(** one call without [rem], what is not consumed going on *)
Lemma cheap_none {A B} rem (m m' : cm (sres T A)) M (f f' : sres T A -> cm (sres T B)) (h : res T A -> cm (res T B)) :
  trio None m m' M ->
  (forall o, snd m = Ret (SOk o) -> cheap rem (f (SOk o)) (f' (SOk o)) (h (ROk o))) ->
  (forall e, snd m = Ret (SErr e) -> er_con e = false -> cheap rem (f (SErr e)) (f' (SErr e)) (h (RErr e))) ->
  (forall e, snd m = Ret (SErr e) -> er_con e = true -> exists e', snd (f (SErr e)) = Ret (SErr e') /\ er_con e' = true) ->
  cheap rem (cbind m f) (cbind m' f') (cbind M h).
Proof.
  intros (H1 & H2 & H3) Ho He Hc. unfold cheap, cbind in *. rewrite H3. destruct (snd m) as [[o|e]|e|]; simpl in H2.
  - rewrite H2. specialize (Ho o eq_refl). cbn [fst snd]. destruct (snd (f (SOk o))) as [[|]| |]; try lia. intros; specialize (Ho H H0); lia.
  - cbn [fst snd]. destruct (er_con e) eqn:Ee.
    + destruct (Hc e eq_refl Ee) as (e' & -> & Hx). intros _ Hy. congruence.
    + rewrite H2. specialize (He e eq_refl Ee). specialize (H1 eq_refl eq_refl). cbn [fst snd].
      destruct (snd (f (SErr e))) as [[|]| |]; try lia. intros; specialize (He H H0); lia.
  - rewrite H2. simpl. lia.
  - rewrite H2. simpl. lia.
Qed.
(** two calls *)
Lemma cheap_two {A B C} rem (m m' : cm (sres T A)) M (f f' : okr T A -> cm (sres T B)) (F : okr T A -> cm (res T B))
    (g : okr T A -> sres T B -> out (sres T C)) (h : okr T A -> res T B -> out (res T C)) (k : recr T A -> cm (res T C)) rm :
  trio rem m m' M ->
  (forall o, snd m = Ret (SOk o) -> trio (rm o) (f o) (f' o) (F o)) ->
  (forall o, ok_con o = true \/ rm o = rem) ->
  (forall o e, exists e', g o (SErr e) = Ret (SErr e') /\ er_con e' = er_con e || ok_con o) ->
  cheap rem
    (cbind m (fun x => match x with SErr e => cret (Ret (SErr e)) | SOk o => cbind (f o) (fun y => cret (g o y)) end))
    (cbind m' (fun x => match x with SErr e => cret (Ret (SErr e)) | SOk o => cbind (f' o) (fun y => cret (g o y)) end))
    (cbind M (fun x => match x with RErr e => cret (Ret (RErr e)) | RRec r => k r | ROk o => cbind (F o) (fun y => cret (h o y)) end)).
Proof.
  intros (H1 & H2 & H3) Hf Hr Hg. unfold cheap in *. rewrite !(cbind_eq m), !(cbind_eq m'), !(cbind_eq M). rewrite H3.
  destruct (snd m) as [[o|e]|e|] eqn:Em; simpl in H2.
  - rewrite H2. destruct (Hf o eq_refl) as (G1 & G2 & G3). unfold cheap in G1. unfold cbind. cbn [fst snd]. rewrite G3.
    destruct (snd (f o)) as [[o'|e']|e'|]; simpl in G2.
    + rewrite G2. cbn [fst snd cret]. destruct (g o (SOk o')) as [[|]| |]; lia.
    + cbn [fst snd cret]. destruct (Hg o e') as (e'' & -> & Hc). intros -> Hcc. rewrite Hcc in Hc. symmetry in Hc.
      apply orb_false_iff in Hc as [Hc1 Hc2].
      destruct (Hr o) as [Hx|Hx]; [congruence|]. rewrite Hx in *. specialize (G1 eq_refl Hc1). rewrite Hc1 in G2. rewrite G2.
      cbn [fst snd cret]. lia.
    + rewrite G2. cbn [fst snd cret]. lia.
    + rewrite G2. cbn [fst snd cret]. lia.
  - cbn [fst snd cret]. intros -> Hc. specialize (H1 eq_refl Hc). rewrite Hc in H2. rewrite H2. cbn [fst snd cret]. lia.
  - rewrite H2. cbn [fst snd]. lia.
  - rewrite H2. cbn [fst snd]. lia.
Qed.
Lemma cheap_many {A} (p p' : pcost T A) (P : pcostr T A) s ins :
  (forall pos c, trio None (p s pos c) (p' s pos c) (P s pos c ins None)) ->
  forall n b vs pos c rem, cheap rem (many_cost p n b vs s pos c) (many_cost p' n b vs s pos c) (many_costr P n b vs s pos c ins).
Proof.
  intros H. induction n as [|n IH]; intros b vs pos c rem; [cbn; lia|]. cbn [many_cost many_costr]. apply cheap_none; auto.
  - intros o _. destruct (ok_con o); [apply IH|cbn; lia].
  - intros e _ ->. cbn. lia.
  - intros e _ Hc. rewrite Hc. exists e. split; auto.
Qed.

Lemma cost_sim n : forall A (g : gram A) s pos c ins rem,
  cheap rem (cfast E n g s pos c) (cfast (tracedE E) n (traced g) s pos c) (cfull E n g s pos c ins rem).
Proof.
  induction n as [|n IH]; intros A g s pos c ins rem; [cbn; lia|].
  assert (TR : forall B (p : gram B) s pos c rem, trio rem (cfast E n p s pos c) (cfast (tracedE E) n (traced p) s pos c) (cfull E n p s pos c ins rem)).
  { intros B p s0 pos0 c0 rem0. split; [apply IH|]. split; [rewrite cfast_fast, cfull_full; apply sim_fast_full|]. apply traced_near. }
  assert (HP : forall B (m : out (sres T B)) (M : out (res T B)), cheap rem (tick (cret m)) (tick (cret m)) (tick (cret M))).
  { intros B m M. unfold cheap. cbn. destruct m as [[|]| |]; lia. }
  assert (HW : forall B (p : gram B) r rem (k : res T B -> out (res T B)), r = rem ->
    cheap rem (cfast E n p s pos c) (tick (fmap_cost (cfast (tracedE E) n (traced p)) Ret s pos c))
      (tick (cbind (cfull E n p s pos c ins r) (fun x => cret (k x))))).
  { intros B p r rm k ->. destruct (TR B p s pos c rm) as (H1 & H2 & H3). unfold cheap, tick, fmap_cost, cbind in *. rewrite H3. cbn [fst snd].
    destruct (snd (cfast E n p s pos c)) as [[o|e]|e|]; simpl in H2.
    - rewrite H2. cbn [fst snd cret]. lia.
    - intros -> Hc. specialize (H1 eq_refl Hc). rewrite Hc in H2. rewrite H2. cbn [fst snd cret]. lia.
    - rewrite H2. cbn [fst snd cret]. lia.
    - rewrite H2. cbn [fst snd cret]. lia. }
  cbn [cfull]. 
  destruct g as [A x|A f|A l| |test|teq x l|teq x l|A m|A B p f|A p q|A B p f|A B C p q merge|A p|A p|A p|A p x|A p|A p x l|A p fn lab|A p|A p|A delta p|d|A];
    cbn [cfast traced]; try apply HP.
  - apply cheap_tick. apply (cheap_one rem _ _ _ (sres_fmap f) (res_fmap f)); auto. intros e. reflexivity.
  - apply cheap_tick. unfold alt_cost, alt_costr. apply cheap_none; auto.
    + intros o _. cbn. lia.
    + intros [le xe ce] _ Hc. cbn in Hc. subst ce. cbn [er_con]. apply cheap_none; auto.
      * intros o _. cbn [sres_con res_con]. destruct (ok_con o); cbn; lia.
      * intros e' _ Hc'. cbn [sres_con res_con]. rewrite Hc'. cbn. intros -> _. cbn. lia.
      * intros e' _ Hc'. cbn [sres_con]. rewrite Hc'. exists e'. split; auto.
    + intros e _ Hc. rewrite Hc. exists e. cbn. auto.
  - apply cheap_tick. unfold bind_cost, bind_costr.
    apply (cheap_two rem _ _ _ _ _ (fun oa => cfull E n (f (ok_val oa)) s (ok_pos oa) (ok_ctx oa) ins (if ok_con oa then Some ins else rem))
      (fun oa rb => Ret (sres_prepend (ok_exp oa) (ok_con oa) rb)) (fun oa rb => Ret (res_prepend (ok_exp oa) (ok_con oa) rb))
      _ (fun oa => if ok_con oa then Some ins else rem)); auto.
    + intros o. destruct (ok_con o); auto.
    + intros o e. eexists. split; [reflexivity|]. apply (sres_prepend_con (T := T) (A := B)).
  - apply cheap_tick. unfold seq_cost, seq_costr.
    apply (cheap_two rem _ _ _ _ _ (fun oa => cfull E n q s (ok_pos oa) (ok_ctx oa) ins (if ok_con oa then Some ins else rem))
      (fun oa rb => rc <- sres_fmap (fun vb => Ret (merge (ok_val oa) vb)) rb ;; Ret (sres_prepend (ok_exp oa) (ok_con oa) rc))
      (fun oa rb => rc <- res_fmap (fun vb => Ret (merge (ok_val oa) vb)) rb ;; Ret (res_prepend (ok_exp oa) (ok_con oa) rc))
      _ (fun oa => if ok_con oa then Some ins else rem)); auto.
    + intros o. destruct (ok_con o); auto.
    + intros o e. eexists. split; [reflexivity|]. apply (sres_prepend_con (T := T) (A := C)).
  - apply cheap_tick. unfold maybe_cost, maybe_costr. apply cheap_none; auto.
    + intros o _. cbn. lia.
    + intros e _ Hc. cbn. rewrite Hc. cbn. lia.
    + intros e _ Hc. rewrite Hc. exists e. cbn. auto.
  - apply cheap_tick. apply cheap_many. auto.
  - apply cheap_tick. unfold attempt_cost, attempt_costr. destruct rem as [r|].
    + destruct (TR A p s pos c (Some r)) as (H1 & H2 & H3). unfold cheap, cbind in *. rewrite H3.
      destruct (snd (cfast E n p s pos c)) as [[o|e]|e|]; cbn [fst snd cret]; try lia. discriminate.
    + destruct (traced_near E n A p s pos c) as (H1 & H2 & _). unfold cheap, cbind. rewrite H1.
      destruct (snd (cfast E n p s pos c)) as [[o|e]|e|]; cbn [fst snd cret]; lia.
  - apply cheap_tick. apply (cheap_one rem _ _ _ (fun r => Ret (sres_set_exp [x] r)) (fun r => Ret (res_set_exp [x] r))); auto.
    intros e. simpl. unfold er_set_exp. destruct (er_con e) eqn:X; simpl; auto.
  - apply HW. reflexivity.
  - unfold recover_with_costr. destruct rem as [r|]; [apply HW; reflexivity|].
    generalize (HW A p None None (fun x => Ret x) eq_refl). generalize (cfull E n p s pos c ins None).
    intros M H. replace (tick M) with (tick (cbind M (fun x => cret (Ret x)))); auto.
    destruct M as [k [|e|]]; unfold tick, cbind; cbn [fst snd cret]; rewrite ?Nat.add_0_r; reflexivity.
  - unfold recover_with_costr. destruct rem as [r|]; [apply HW; reflexivity|].
    generalize (HW A p None None (fun x => Ret x) eq_refl). generalize (cfull E n p s pos c ins None).
    intros M H. replace (tick M) with (tick (cbind M (fun x => cret (Ret x)))); auto.
    destruct M as [k [|e|]]; unfold tick, cbind; cbn [fst snd cret]; rewrite ?Nat.add_0_r; reflexivity.
  - apply cheap_tick. unfold block_cost, block_costr. cbv zeta.
    apply (cheap_one rem _ _ _ (fun r => Ret (sres_set_ctx _ r)) (fun r => Ret (res_set_ctx _ r))); auto.
    intros e. reflexivity.
  - apply cheap_tick. unfold aligned_cost, aligned_costr. cbv zeta. destruct (Z.eqb _ _); [apply IH|]. cbn. lia.
  - apply cheap_tick. unfold indented_cost, indented_costr. cbv zeta. destruct (Z.eqb _ _); [|cbn; lia].
    apply (cheap_one rem _ _ _ (fun r => Ret (sres_set_ctx _ r)) (fun r => Ret (res_set_ctx _ r))); auto.
    intros e. reflexivity.
  - apply cheap_tick. apply IH.
Qed.
End Cheap.
