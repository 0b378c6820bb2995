(** The call depth of a recovering run: proofs. *)
From Verif Require Export DepthFull DepthProofs CostFullProofs Simulation.

Section DEraseFull.
Context {T : Type}.
Definition derasesr {A} (p : pdepthr T A) (q : pfull T A) : Prop :=
  forall s pos c ins rem, snd (p s pos c ins rem) = q s pos c ins rem.
Lemma dflat_erases {A B} (f : A -> dm (list B)) g l : (forall a, snd (f a) = g a) ->
  snd (dflat_map f l) = flat_mapM g l.
Proof.
  intros H. induction l as [|a l IH]; [reflexivity|]. simpl. apply snd_dbind; [apply H|]. intros y.
  apply snd_dbind; [apply IH|reflexivity].
Qed.
Lemma continue_derases {A B C} (ra : recr T A) ins (f : A -> nat -> ctx T -> Z -> dm (res T B)) g (merge : A -> B -> C) :
  (forall v p c r, snd (f v p c r) = g v p c r) ->
  snd (continue_depth ra ins f merge) = continue_parse ra ins g merge.
Proof.
  intros H. unfold continue_depth, continue_parse. apply snd_dbind; [|reflexivity].
  apply dflat_erases. intros a. unfold cont_one_depth, cont_one. apply snd_dbind; [apply H|].
  intros [o|e|r]; reflexivity.
Qed.
Lemma manyr_derases {A} (p : pdepthr T A) q : derasesr p q -> forall n b vs s pos c ins,
  snd (many_depthr p n b vs s pos c ins) = many_full q n b vs s pos c ins.
Proof.
  intros H. induction n as [|n IH]; intros b vs s pos c ins; [reflexivity|]. simpl.
  apply snd_dbind; [apply H|]. intros [o|e|r].
  - destruct (ok_con o); [apply IH|reflexivity].
  - destruct (er_con e); reflexivity.
  - apply continue_derases. intros. apply IH.
Qed.
Context {V : nat -> Type}.
Variable E : env T V.
Theorem dfull_full n : forall A (g : gram T V A), derasesr (dfull E n g) (full E n g).
Proof.
  induction n as [|n IH]; intros A g s pos c ins rem; [reflexivity|].
  cbn [dfull full nest snd].
  destruct g; try reflexivity.
  - unfold fmap_depthr, fmap_full. apply snd_dbind; [apply IH|reflexivity].
  - unfold alt_depthr, alt_full. apply snd_dbind; [apply IH|].
    assert (R : forall la x, snd (alt_recover_depth (dfull E n g1) (dfull E n g2) la x s pos c ins rem) =
      alt_recover (full E n g1) (full E n g2) la x s pos c ins rem).
    { intros la x. unfold alt_recover_depth, alt_recover. destruct rem; [|reflexivity].
      apply snd_dbind; [apply IH|]. intros a. apply snd_dbind; [apply IH|]. intros b.
      destruct a, b; reflexivity. }
    intros [o|[la xa ca]|[reps mn la xa ca]]; [reflexivity| |];
      (destruct ca; [reflexivity|]; apply snd_dbind; [apply IH|]; intros b;
       destruct (res_con b); [reflexivity|]; destruct b; [reflexivity| |]; apply R).
  - unfold bind_depthr, bind_full. apply snd_dbind; [apply IH|]. intros [o|e|r]; [|reflexivity|].
    + destruct (ok_con o); (apply snd_dbind; [apply IH|reflexivity]).
    + apply continue_derases. intros. apply IH.
  - unfold seq_depthr, seq_full. apply snd_dbind; [apply IH|]. intros [o|e|r]; [|reflexivity|].
    + apply snd_dbind; [apply IH|reflexivity].
    + apply continue_derases. intros. apply IH.
  - unfold maybe_depthr, maybe_full. apply snd_dbind; [apply IH|reflexivity].
  - apply manyr_derases, IH.
  - unfold attempt_depthr, attempt_full. destruct rem; [apply IH|]. apply snd_dbind; [apply dfast_fast|]. intros [o|e]; reflexivity.
  - unfold label_depthr, label_full. apply snd_dbind; [apply IH|reflexivity].
  - unfold recover_depthr, recover_full. apply snd_dbind; [apply IH|reflexivity].
  - unfold recover_with_depthr, recover_with_full. destruct rem; [|apply IH]. apply snd_dbind; [apply IH|reflexivity].
  - unfold recover_with_depthr, recover_with_full. destruct rem; [|apply IH]. apply snd_dbind; [apply IH|reflexivity].
  - unfold block_depthr, block_full. apply snd_dbind; [apply IH|reflexivity].
  - unfold aligned_depthr, aligned_full. destruct (Z.eqb _ _); [apply IH|reflexivity].
  - unfold indented_depthr, indented_full. destruct (Z.eqb _ _); [|reflexivity]. apply snd_dbind; [apply IH|reflexivity].
  - apply IH.
Qed.
End DEraseFull.

(** ** against the parser where recover, recover_with, recover_with_fn only call their
    argument *)
Section DTraced.
Context {T : Type} {V : nat -> Type}.
Notation gram := (gram T V).
Variable E : env T V.

Definition dnear {A} (ex : Prop) (m m' : dm A) : Prop := snd m' = snd m /\ fst m <= fst m' /\ (ex -> fst m = fst m').
Lemma dnear_refl {A} ex (m : dm A) : dnear ex m m.
Proof. repeat split; auto. Qed.
Lemma dnear_bind {A B} ex (m m' : dm A) (f f' : A -> dm B) : dnear ex m m' -> (forall a, dnear ex (f a) (f' a)) ->
  dnear ex (dbind m f) (dbind m' f').
Proof.
  intros (H1 & H2 & H3) Hf. unfold dnear, dbind. rewrite H1. destruct (snd m); simpl; auto.
  destruct (Hf a) as (F1 & F2 & F3). split; auto. split; [lia|]. intros X. rewrite H3, F3; auto.
Qed.
Lemma dnear_tick {A} ex (m m' : dm A) : dnear ex m m' -> dnear ex (nest m) (nest m').
Proof. intros (H1 & H2 & H3). unfold dnear, nest. simpl. split; auto. split; [lia|]. intros X. rewrite H3; auto. Qed.
Lemma dnear_many {A} ex (p p' : pdepth T A) : (forall s pos c, dnear ex (p s pos c) (p' s pos c)) ->
  forall n b vs s pos c, dnear ex (many_depth p n b vs s pos c) (many_depth p' n b vs s pos c).
Proof.
  intros H. induction n as [|n IH]; intros b vs s pos c; [apply dnear_refl|]. simpl. apply dnear_bind; auto.
  intros [o|e]; [destruct (ok_con o); [apply IH|apply dnear_refl]|apply dnear_refl].
Qed.
Lemma dnear_sub {A} (ex ex' : Prop) (m m' : dm A) : (ex' -> ex) -> dnear ex m m' -> dnear ex' m m'.
Proof. intros H (H1 & H2 & H3). repeat split; auto. Qed.

Lemma traced_dnear n : forall A (g : gram A) s pos c,
  dnear (no_recover g /\ forall d, no_recover (E d)) (dfast E n g s pos c) (dfast (tracedE E) n (traced g) s pos c).
Proof.
  induction n as [|n IH]; intros A g s pos c; [apply dnear_refl|].
  assert (HR : forall B (p : gram B) (ex : Prop) s pos c, (ex -> False) ->
    dnear ex (dfast E n p s pos c) (nest (fmap_depth (dfast (tracedE E) n (traced p)) Ret s pos c))).
  { intros B p ex s0 pos0 c0 Hex. destruct (IH B p s0 pos0 c0) as (H1 & H2 & _). unfold dnear, nest, fmap_depth, dbind. rewrite H1.
    cbn [fst snd]. destruct (snd (dfast E n p s0 pos0 c0)) as [[o|e]|e|]; cbn [fst snd dret sres_fmap ok_fmap obind];
      (split; [try (destruct o); reflexivity|split; [lia|intros X; destruct (Hex X)]]). }
  destruct g as [A x|A f|A l| |test|teq x l|teq x l|A m|A B p f|A p q|A B p f|A B C p q merge|A p|A p|A p|A p x|A p|A p x l|A p fn lab|A p|A p|A delta p|d|A];
    cbn [dfast traced]; try apply dnear_refl.
  - apply dnear_tick, dnear_bind; [|intros; apply dnear_refl]. eapply dnear_sub; [|apply IH]. intros [[_ H] H']; auto.
  - apply dnear_tick, dnear_bind; [eapply dnear_sub; [|apply IH]; intros [[_ [H _]] H']; auto|].
    intros [o|e]; [apply dnear_refl|]. destruct (er_con e); [apply dnear_refl|].
    apply dnear_bind; [eapply dnear_sub; [|apply IH]; intros [[_ [_ H]] H']; auto|]. intros. apply dnear_refl.
  - apply dnear_tick, dnear_bind; [eapply dnear_sub; [|apply IH]; intros [[_ [H _]] H']; auto|].
    intros [o|e]; [|apply dnear_refl].
    apply dnear_bind; [eapply dnear_sub; [|apply IH]; intros [[_ [_ H]] H']; split; auto; apply H|]. intros. apply dnear_refl.
  - apply dnear_tick, dnear_bind; [eapply dnear_sub; [|apply IH]; intros [[_ [H _]] H']; auto|].
    intros [o|e]; [|apply dnear_refl].
    apply dnear_bind; [eapply dnear_sub; [|apply IH]; intros [[_ [_ H]] H']; auto|]. intros. apply dnear_refl.
  - apply dnear_tick, dnear_bind; [|intros; apply dnear_refl]. eapply dnear_sub; [|apply IH]. intros [[_ H] H']; auto.
  - apply dnear_tick, dnear_many. intros. eapply dnear_sub; [|apply IH]. intros [[_ H] H']; auto.
  - apply dnear_tick, dnear_bind; [|intros; apply dnear_refl]. eapply dnear_sub; [|apply IH]. intros [[_ H] H']; auto.
  - apply dnear_tick, dnear_bind; [|intros; apply dnear_refl]. eapply dnear_sub; [|apply IH]. intros [[_ H] H']; auto.
  - apply HR. intros [[H _] _]. apply H. exact I.
  - apply HR. intros [[H _] _]. apply H. exact I.
  - apply HR. intros [[H _] _]. apply H. exact I.
  - apply dnear_tick, dnear_bind; [|intros; apply dnear_refl]. eapply dnear_sub; [|apply IH]. intros [[_ H] H']; auto.
  - apply dnear_tick. unfold aligned_depth. cbv zeta. destruct (Z.eqb _ _); [|apply dnear_refl].
    eapply dnear_sub; [|apply IH]. intros [[_ H] H']; auto.
  - apply dnear_tick. unfold indented_depth. cbv zeta. destruct (Z.eqb _ _); [|apply dnear_refl].
    apply dnear_bind; [|intros; apply dnear_refl]. eapply dnear_sub; [|apply IH]. intros [[_ H] H']; auto.
  - apply dnear_tick. eapply dnear_sub; [|apply IH]. intros [_ H]; auto.
Qed.
End DTraced.

(** ** A run that ends well is as deep with recovery *)
Section DCheap.
Context {T : Type} {V : nat -> Type}.
Notation gram := (gram T V).
Variable E : env T V.
Definition dcheap {A} (rem : option Z) (m m' : dm (sres T A)) (M : dm (res T A)) : Prop :=
  match snd m with
  | Ret (SErr e) => rem = None -> er_con e = false -> fst m <= fst M <= fst m'
  | _ => fst m <= fst M <= fst m'
  end.
(** everything known about the three runs *)
Definition dtrio {A} (rem : option Z) (m m' : dm (sres T A)) (M : dm (res T A)) : Prop :=
  dcheap rem m m' M /\ sim rem (snd m) (snd M) /\ snd m' = snd m.
Lemma dcheap_tick {A} rem (m m' : dm (sres T A)) M : dcheap rem m m' M -> dcheap rem (nest m) (nest m') (nest M).
Proof. unfold dcheap, nest. simpl. destruct (snd m) as [[o|e]|e|]; intuition lia. Qed.
(** one call, then some computation *)
Lemma dcheap_one {A B} rem (m m' : dm (sres T A)) M (f : sres T A -> out (sres T B)) (h : res T A -> out (res T B)) :
  dtrio rem m m' M ->
  (forall e, match f (SErr e) with Ret (SErr e') => er_con e' = er_con e | _ => False end) ->
  dcheap rem (dbind m (fun x => dret (f x))) (dbind m' (fun x => dret (f x))) (dbind M (fun x => dret (h x))).
Proof.
  intros (H1 & H2 & H3) Hf. unfold dcheap, dbind in *. rewrite H3. destruct (snd m) as [[o|e]|e|]; simpl in H2.
  - rewrite H2. simpl. destruct (f (SOk o)) as [[|]| |]; simpl; lia.
  - specialize (Hf e). cbn [fst snd dret]. destruct (f (SErr e)) as [[|e']| |]; try contradiction. intros -> Hc.
    rewrite Hf in Hc. specialize (H1 eq_refl Hc). rewrite Hc in H2. rewrite H2. simpl. lia.
  - rewrite H2. simpl. lia.
  - rewrite H2. simpl. lia.
Qed.
(** one call without [rem], what is not consumed going on *)
Lemma dcheap_none {A B} rem (m m' : dm (sres T A)) M (f f' : sres T A -> dm (sres T B)) (h : res T A -> dm (res T B)) :
  dtrio None m m' M ->
  (forall o, snd m = Ret (SOk o) -> dcheap rem (f (SOk o)) (f' (SOk o)) (h (ROk o))) ->
  (forall e, snd m = Ret (SErr e) -> er_con e = false -> dcheap rem (f (SErr e)) (f' (SErr e)) (h (RErr e))) ->
  (forall e, snd m = Ret (SErr e) -> er_con e = true -> exists e', snd (f (SErr e)) = Ret (SErr e') /\ er_con e' = true) ->
  dcheap rem (dbind m f) (dbind m' f') (dbind M h).
Proof.
  intros (H1 & H2 & H3) Ho He Hc. unfold dcheap, dbind in *. rewrite H3. destruct (snd m) as [[o|e]|e|]; simpl in H2.
  - rewrite H2. specialize (Ho o eq_refl). cbn [fst snd]. destruct (snd (f (SOk o))) as [[|]| |]; try lia. intros; specialize (Ho H H0); lia.
  - cbn [fst snd]. destruct (er_con e) eqn:Ee.
    + destruct (Hc e eq_refl Ee) as (e' & -> & Hx). intros _ Hy. congruence.
    + rewrite H2. specialize (He e eq_refl Ee). specialize (H1 eq_refl eq_refl). cbn [fst snd].
      destruct (snd (f (SErr e))) as [[|]| |]; try lia. intros; specialize (He H H0); lia.
  - rewrite H2. simpl. lia.
  - rewrite H2. simpl. lia.
Qed.
(** two calls *)
Lemma dcheap_two {A B C} rem (m m' : dm (sres T A)) M (f f' : okr T A -> dm (sres T B)) (F : okr T A -> dm (res T B))
    (g : okr T A -> sres T B -> out (sres T C)) (h : okr T A -> res T B -> out (res T C)) (k : recr T A -> dm (res T C)) rm :
  dtrio rem m m' M ->
  (forall o, snd m = Ret (SOk o) -> dtrio (rm o) (f o) (f' o) (F o)) ->
  (forall o, ok_con o = true \/ rm o = rem) ->
  (forall o e, exists e', g o (SErr e) = Ret (SErr e') /\ er_con e' = er_con e || ok_con o) ->
  dcheap rem
    (dbind m (fun x => match x with SErr e => dret (Ret (SErr e)) | SOk o => dbind (f o) (fun y => dret (g o y)) end))
    (dbind m' (fun x => match x with SErr e => dret (Ret (SErr e)) | SOk o => dbind (f' o) (fun y => dret (g o y)) end))
    (dbind M (fun x => match x with RErr e => dret (Ret (RErr e)) | RRec r => k r | ROk o => dbind (F o) (fun y => dret (h o y)) end)).
Proof.
  intros (H1 & H2 & H3) Hf Hr Hg. unfold dcheap in *. rewrite !(dbind_eq m), !(dbind_eq m'), !(dbind_eq M). rewrite H3.
  destruct (snd m) as [[o|e]|e|] eqn:Em; simpl in H2.
  - rewrite H2. destruct (Hf o eq_refl) as (G1 & G2 & G3). unfold dcheap in G1. unfold dbind. cbn [fst snd]. rewrite G3.
    destruct (snd (f o)) as [[o'|e']|e'|]; simpl in G2.
    + rewrite G2. cbn [fst snd dret]. destruct (g o (SOk o')) as [[|]| |]; lia.
    + cbn [fst snd dret]. destruct (Hg o e') as (e'' & -> & Hc). intros -> Hcc. rewrite Hcc in Hc. symmetry in Hc.
      apply orb_false_iff in Hc as [Hc1 Hc2].
      destruct (Hr o) as [Hx|Hx]; [congruence|]. rewrite Hx in *. specialize (G1 eq_refl Hc1). rewrite Hc1 in G2. rewrite G2.
      cbn [fst snd dret]. lia.
    + rewrite G2. cbn [fst snd dret]. lia.
    + rewrite G2. cbn [fst snd dret]. lia.
  - cbn [fst snd dret]. intros -> Hc. specialize (H1 eq_refl Hc). rewrite Hc in H2. rewrite H2. cbn [fst snd dret]. lia.
  - rewrite H2. cbn [fst snd]. lia.
  - rewrite H2. cbn [fst snd]. lia.
Qed.
Lemma dcheap_many {A} (p p' : pdepth T A) (P : pdepthr T A) s ins :
  (forall pos c, dtrio None (p s pos c) (p' s pos c) (P s pos c ins None)) ->
  forall n b vs pos c rem, dcheap rem (many_depth p n b vs s pos c) (many_depth p' n b vs s pos c) (many_depthr P n b vs s pos c ins).
Proof.
  intros H. induction n as [|n IH]; intros b vs pos c rem; [cbn; lia|]. cbn [many_depth many_depthr]. apply dcheap_none; auto.
  - intros o _. destruct (ok_con o); [apply IH|cbn; lia].
  - intros e _ ->. cbn. lia.
  - intros e _ Hc. rewrite Hc. exists e. split; auto.
Qed.

Lemma depth_sim n : forall A (g : gram A) s pos c ins rem,
  dcheap rem (dfast E n g s pos c) (dfast (tracedE E) n (traced g) s pos c) (dfull E n g s pos c ins rem).
Proof.
  induction n as [|n IH]; intros A g s pos c ins rem; [cbn; lia|].
  assert (TR : forall B (p : gram B) s pos c rem, dtrio rem (dfast E n p s pos c) (dfast (tracedE E) n (traced p) s pos c) (dfull E n p s pos c ins rem)).
  { intros B p s0 pos0 c0 rem0. split; [apply IH|]. split; [rewrite dfast_fast, dfull_full; apply sim_fast_full|]. apply traced_dnear. }
  assert (HP : forall B (m : out (sres T B)) (M : out (res T B)), dcheap rem (nest (dret m)) (nest (dret m)) (nest (dret M))).
  { intros B m M. unfold dcheap. cbn. destruct m as [[|]| |]; lia. }
  assert (HW : forall B (p : gram B) r rem (k : res T B -> out (res T B)), r = rem ->
    dcheap rem (dfast E n p s pos c) (nest (fmap_depth (dfast (tracedE E) n (traced p)) Ret s pos c))
      (nest (dbind (dfull E n p s pos c ins r) (fun x => dret (k x))))).
  { intros B p r rm k ->. destruct (TR B p s pos c rm) as (H1 & H2 & H3). unfold dcheap, nest, fmap_depth, dbind in *. rewrite H3. cbn [fst snd].
    destruct (snd (dfast E n p s pos c)) as [[o|e]|e|]; simpl in H2.
    - rewrite H2. cbn [fst snd dret]. lia.
    - intros -> Hc. specialize (H1 eq_refl Hc). rewrite Hc in H2. rewrite H2. cbn [fst snd dret]. lia.
    - rewrite H2. cbn [fst snd dret]. lia.
    - rewrite H2. cbn [fst snd dret]. lia. }
  cbn [dfull]. 
  destruct g as [A x|A f|A l| |test|teq x l|teq x l|A m|A B p f|A p q|A B p f|A B C p q merge|A p|A p|A p|A p x|A p|A p x l|A p fn lab|A p|A p|A delta p|d|A];
    cbn [dfast traced]; try apply HP.
  - apply dcheap_tick. apply (dcheap_one rem _ _ _ (sres_fmap f) (res_fmap f)); auto. intros e. reflexivity.
  - apply dcheap_tick. unfold alt_depth, alt_depthr. apply dcheap_none; auto.
    + intros o _. cbn. lia.
    + intros [le xe ce] _ Hc. cbn in Hc. subst ce. cbn [er_con]. apply dcheap_none; auto.
      * intros o _. cbn [sres_con res_con]. destruct (ok_con o); cbn; lia.
      * intros e' _ Hc'. cbn [sres_con res_con]. rewrite Hc'. cbn. intros -> _. cbn. lia.
      * intros e' _ Hc'. cbn [sres_con]. rewrite Hc'. exists e'. split; auto.
    + intros e _ Hc. rewrite Hc. exists e. cbn. auto.
  - apply dcheap_tick. unfold bind_depth, bind_depthr.
    apply (dcheap_two rem _ _ _ _ _ (fun oa => dfull E n (f (ok_val oa)) s (ok_pos oa) (ok_ctx oa) ins (if ok_con oa then Some ins else rem))
      (fun oa rb => Ret (sres_prepend (ok_exp oa) (ok_con oa) rb)) (fun oa rb => Ret (res_prepend (ok_exp oa) (ok_con oa) rb))
      _ (fun oa => if ok_con oa then Some ins else rem)); auto.
    + intros o. destruct (ok_con o); auto.
    + intros o e. eexists. split; [reflexivity|]. apply (sres_prepend_con (T := T) (A := B)).
  - apply dcheap_tick. unfold seq_depth, seq_depthr.
    apply (dcheap_two rem _ _ _ _ _ (fun oa => dfull E n q s (ok_pos oa) (ok_ctx oa) ins (if ok_con oa then Some ins else rem))
      (fun oa rb => rc <- sres_fmap (fun vb => Ret (merge (ok_val oa) vb)) rb ;; Ret (sres_prepend (ok_exp oa) (ok_con oa) rc))
      (fun oa rb => rc <- res_fmap (fun vb => Ret (merge (ok_val oa) vb)) rb ;; Ret (res_prepend (ok_exp oa) (ok_con oa) rc))
      _ (fun oa => if ok_con oa then Some ins else rem)); auto.
    + intros o. destruct (ok_con o); auto.
    + intros o e. eexists. split; [reflexivity|]. apply (sres_prepend_con (T := T) (A := C)).
  - apply dcheap_tick. unfold maybe_depth, maybe_depthr. apply dcheap_none; auto.
    + intros o _. cbn. lia.
    + intros e _ Hc. cbn. rewrite Hc. cbn. lia.
    + intros e _ Hc. rewrite Hc. exists e. cbn. auto.
  - apply dcheap_tick. apply dcheap_many. auto.
  - apply dcheap_tick. unfold attempt_depth, attempt_depthr. destruct rem as [r|].
    + destruct (TR A p s pos c (Some r)) as (H1 & H2 & H3). unfold dcheap, dbind in *. rewrite H3.
      destruct (snd (dfast E n p s pos c)) as [[o|e]|e|]; cbn [fst snd dret]; try lia. discriminate.
    + destruct (traced_dnear E n A p s pos c) as (H1 & H2 & _). unfold dcheap, dbind. rewrite H1.
      destruct (snd (dfast E n p s pos c)) as [[o|e]|e|]; cbn [fst snd dret]; lia.
  - apply dcheap_tick. apply (dcheap_one rem _ _ _ (fun r => Ret (sres_set_exp [x] r)) (fun r => Ret (res_set_exp [x] r))); auto.
    intros e. simpl. unfold er_set_exp. destruct (er_con e) eqn:X; simpl; auto.
  - apply HW. reflexivity.
  - unfold recover_with_depthr. destruct rem as [r|]; [apply HW; reflexivity|].
    generalize (HW A p None None (fun x => Ret x) eq_refl). generalize (dfull E n p s pos c ins None).
    intros M H. replace (nest M) with (nest (dbind M (fun x => dret (Ret x)))); auto.
    destruct M as [k [|e|]]; unfold nest, dbind; cbn [fst snd dret]; rewrite ?Nat.max_0_r; reflexivity.
  - unfold recover_with_depthr. destruct rem as [r|]; [apply HW; reflexivity|].
    generalize (HW A p None None (fun x => Ret x) eq_refl). generalize (dfull E n p s pos c ins None).
    intros M H. replace (nest M) with (nest (dbind M (fun x => dret (Ret x)))); auto.
    destruct M as [k [|e|]]; unfold nest, dbind; cbn [fst snd dret]; rewrite ?Nat.max_0_r; reflexivity.
  - apply dcheap_tick. unfold block_depth, block_depthr. cbv zeta.
    apply (dcheap_one rem _ _ _ (fun r => Ret (sres_set_ctx _ r)) (fun r => Ret (res_set_ctx _ r))); auto.
    intros e. reflexivity.
  - apply dcheap_tick. unfold aligned_depth, aligned_depthr. cbv zeta. destruct (Z.eqb _ _); [apply IH|]. cbn. lia.
  - apply dcheap_tick. unfold indented_depth, indented_depthr. cbv zeta. destruct (Z.eqb _ _); [|cbn; lia].
    apply (dcheap_one rem _ _ _ (fun r => Ret (sres_set_ctx _ r)) (fun r => Ret (res_set_ctx _ r))); auto.
    intros e. reflexivity.
  - apply dcheap_tick. apply IH.
Qed.
End DCheap.
