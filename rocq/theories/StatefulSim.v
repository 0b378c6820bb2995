(** How the two interpreters of a parser with stateful callbacks are related. *)
From Verif Require Export StatefulProofs StatefulSpec.

Section SSim.
Context {St T : Type} {V : nat -> Type} (R : St -> St -> Prop).
Hypothesis Rre : is_preorder R.
Let Rrefl : forall w, R w w := proj1 Rre.
Let Rtrans : forall a b c, R a b -> R b c -> R a c := proj2 Rre.

(** ** 1. Every run moves the state along [R] *)
Lemma mv_lift {A} (o : out A) : moves R (slift o).
Proof. intros w; apply Rrefl. Qed.
Lemma mv_bind {A B} (m : st St A) (k : A -> st St B) :
  moves R m -> (forall a, moves R (k a)) -> moves R (sbind m k).
Proof.
  intros H Hk w. unfold sbind. specialize (H w). destruct (m w) as [w' [a|e|]]; simpl in *; auto.
  eapply Rtrans; [exact H|apply Hk].
Qed.
Lemma mv_map {A B} (f : A -> st St B) l : (forall a, moves R (f a)) -> moves R (smap f l).
Proof.
  intros H. induction l as [|a l IH]; simpl; [apply mv_lift|].
  apply mv_bind; [apply H|]. intros x. apply mv_bind; [exact IH|]. intros y. apply mv_lift.
Qed.
Lemma mv_flat_map {A B} (f : A -> st St (list B)) l : (forall a, moves R (f a)) -> moves R (sflat_map f l).
Proof.
  intros H. induction l as [|a l IH]; simpl; [apply mv_lift|].
  apply mv_bind; [apply H|]. intros x. apply mv_bind; [exact IH|]. intros y. apply mv_lift.
Qed.
Lemma mv_skip {X} (p : nat -> st St (option X)) k cur :
  (forall c, moves R (p c)) -> moves R (skip_loop_st p k cur).
Proof.
  intros H. revert cur. induction k as [|k IH]; intros cur; simpl; [apply mv_lift|].
  apply mv_bind; auto. intros [x|]; [apply mv_lift|apply IH].
Qed.
Lemma mv_probe (test : T -> st St bool) s i :
  (forall t, moves R (test t)) -> moves R (probe_tok_st test s i).
Proof.
  intros H. unfold probe_tok_st. destruct (nth_error s i); [|apply mv_lift].
  apply mv_bind; [apply H|]. intros; apply mv_lift.
Qed.
Ltac mgo :=
  repeat (first
    [ apply mv_lift
    | solve [auto]
    | match goal with |- moves R (sbind _ _) => apply mv_bind; [|intros] end
    | match goal with |- moves R (match ?x with _ => _ end) => destruct x end
    | match goal with |- moves R (if ?x then _ else _) => destruct x end
    | match goal with |- forall _, _ => intro end ]).
Lemma mv_sres_fmap {A B} (f : A -> st St B) (r : sres T A) :
  (forall a, moves R (f a)) -> moves R (sres_fmap_st f r).
Proof. intros H. unfold sres_fmap_st, ok_fmap_st. mgo. Qed.
Lemma mv_res_fmap {A B} (f : A -> st St B) (r : res T A) :
  (forall a, moves R (f a)) -> moves R (res_fmap_st f r).
Proof.
  intros H. unfold res_fmap_st, ok_fmap_st, rec_fmap_st, rep_fmap_st. mgo.
  apply mv_map. mgo.
Qed.
Lemma mv_continue {A B C} (ra : recr T A) ins (f : A -> nat -> ctx T -> Z -> st St (res T B)) (merge : A -> B -> C) :
  (forall v p c r, moves R (f v p c r)) -> moves R (continue_st ra ins f merge).
Proof.
  intros H. unfold continue_st. apply mv_bind; [|intros; apply mv_lift]. apply mv_flat_map.
  intros r. unfold cont_one_st. mgo.
Qed.
Lemma mv_many_f {A} (p : psf St T A) n s :
  (forall pos c, moves R (p s pos c)) -> forall con v pos c, moves R (many_sf p n con v s pos c).
Proof. intros H. induction n as [|n IH]; intros con v pos c; simpl; mgo. Qed.
Lemma mv_many_r {A} (p : psr St T A) n s ins :
  (forall pos c rem, moves R (p s pos c ins rem)) -> forall con v pos c, moves R (many_sr p n con v s pos c ins).
Proof. intros H. induction n as [|n IH]; intros con v pos c; simpl; mgo. apply mv_continue. auto. Qed.

(** a callback that returns a parser, and the run of that parser *)
Lemma mv_call {A B X} (f : A -> St -> St * out (sgram St T V B)) a (run : sgram St T V B -> st St X) :
  (forall w, R w (fst (f a w)) /\ match f a w with (_, Ret q) => callbacks_move R q | _ => True end) ->
  (forall q, callbacks_move R q -> moves R (run q)) ->
  moves R (sbind (f a) run).
Proof.
  intros Hf Hq w. unfold sbind. destruct (Hf w) as [H1 H2]. destruct (f a w) as [w' [q|e|]]; simpl in *; auto.
  eapply Rtrans; [exact H1|]. apply Hq; auto.
Qed.

Lemma mv_fast (E : senv St T V) n : env_moves R E -> forall A (g : sgram St T V A) s pos c,
  callbacks_move R g -> moves R (sfast E n g s pos c).
Proof.
  intros HE. induction n as [|n IH]; intros A g s pos c Hg; simpl; [apply mv_lift|].
  destruct g; simpl in Hg;
    unfold purefn_sf, satisfy_sf, fmap_sf, alt_sf, seq_sf, maybe_sf, attempt_sf, label_sf,
      block_sf, aligned_sf, indented_sf; cbv zeta;
    repeat match goal with H : _ /\ _ |- _ => destruct H end; try solve [mgo].
  - apply mv_bind; [apply mv_probe; auto|mgo].
  - apply mv_bind; [auto|]. intros; apply mv_sres_fmap; auto.
  - unfold bind_sf. apply mv_bind; [auto|]. intros [o|e]; [|apply mv_lift].
    eapply mv_call; [intros w; apply H0|]. intros q Hq. mgo.
  - apply mv_many_f. auto.
Qed.
Lemma mv_full (E : senv St T V) n : env_moves R E -> forall A (g : sgram St T V A) s pos c ins rem,
  callbacks_move R g -> moves R (sfull E n g s pos c ins rem).
Proof.
  intros HE. induction n as [|n IH]; intros A g s pos c ins rem Hg; simpl; [apply mv_lift|].
  destruct g; simpl in Hg;
    unfold purefn_sr, satisfy_sr, fmap_sr, alt_sr, alt_recover_sr, seq_sr, maybe_sr, attempt_sr, label_sr,
      recover_sr, recover_with_sr, block_sr, aligned_sr, indented_sr; cbv zeta;
    repeat match goal with H : _ /\ _ |- _ => destruct H end; try solve [mgo].
  - apply mv_bind; [apply mv_probe; auto|]. intros [t|]; [mgo|]. destruct rem; [|mgo].
    apply mv_bind; [|mgo]. apply mv_skip. intros; apply mv_probe; auto.
  - apply mv_bind; [auto|]. intros; apply mv_res_fmap; auto.
  - unfold bind_sr. apply mv_bind; [auto|]. intros [o|e|rc]; [|apply mv_lift|].
    + eapply mv_call; [intros w; apply H0|]. intros q Hq. mgo.
    + apply mv_continue. intros. eapply mv_call; [intros w; apply H0|]. auto.
  - apply mv_bind; [auto|]. intros [o|e|rc]; [|apply mv_lift|].
    + mgo.
    + apply mv_continue. auto.
  - apply mv_many_r. auto.
  - destruct rem; [auto|]. apply mv_bind; [apply mv_fast; auto|mgo].
Qed.

(** ** 2. The simulation *)
Definition ssim {A} (rem : option Z) (f : St * out (sres T A)) (F : St * out (res T A)) : Prop :=
  match snd f with
  | NoFuel => F = (fst f, NoFuel)
  | Raise e => F = (fst f, Raise e)
  | Ret (SOk o) => F = (fst f, Ret (ROk o))
  | Ret (SErr e) =>
      R (fst f) (fst F) /\
      match rem with
      | Some _ => forall r, snd F = Ret r -> not_ok r
      | None =>
          if er_con e then forall r, snd F = Ret r -> not_ok r /\ res_con r = true
          else F = (fst f, Ret (RErr e))
      end
  end.

Lemma sbind_ret {A B} (m : st St A) (k : A -> st St B) w b :
  snd (sbind m k w) = Ret b -> exists a w', m w = (w', Ret a) /\ snd (k a w') = Ret b.
Proof. unfold sbind. destruct (m w) as [w' [a|e|]]; simpl; intros H; try discriminate; eauto. Qed.
Lemma sbind_eq {A B} (m : st St A) (k : A -> st St B) w w' a :
  m w = (w', Ret a) -> sbind m k w = k a w'.
Proof. intros H. unfold sbind. rewrite H. reflexivity. Qed.
Lemma sbind_raise {A B} (m : st St A) (k : A -> st St B) w w' e :
  m w = (w', Raise e) -> sbind m k w = (w', Raise e).
Proof. intros H. unfold sbind. rewrite H. reflexivity. Qed.
Lemma sbind_nofuel {A B} (m : st St A) (k : A -> st St B) w w' :
  m w = (w', NoFuel) -> sbind m k w = (w', NoFuel).
Proof. intros H. unfold sbind. rewrite H. reflexivity. Qed.

Lemma ssim_not_ok {A} rem w (e : errr) (F : St * out (res T A)) r :
  ssim rem (w, Ret (SErr e)) F -> snd F = Ret r -> not_ok r.
Proof.
  unfold ssim; simpl. intros [_ H]. destruct rem; auto. destruct (er_con e).
  - intros Hr. apply H in Hr; tauto.
  - subst F. simpl. intros Hr. inversion Hr; subst; exact I.
Qed.

(** a mapping of results without effects *)
Lemma ssim_map {A B} rem (h : sres T A -> out (sres T B)) (k : res T A -> out (res T B)) m M w :
  (forall o, exists o', h (SOk o) = Ret (SOk o') /\ k (ROk o) = Ret (ROk o')) ->
  (forall e, exists e', h (SErr e) = Ret (SErr e') /\ k (RErr e) = Ret (RErr e') /\ er_con e' = er_con e) ->
  (forall r0 r, k r0 = Ret r -> not_ok r0 -> not_ok r /\ res_con r = res_con r0) ->
  ssim rem (m w) (M w) ->
  ssim rem (sbind m (fun r => slift (h r)) w) (sbind M (fun r => slift (k r)) w).
Proof.
  intros Ho He Hr H. unfold ssim in H. destruct (m w) as [w1 [[o|e]|x|]] eqn:Em; simpl in H.
  - rewrite (sbind_eq _ _ _ _ _ Em), (sbind_eq _ _ _ _ _ H). destruct (Ho o) as (o' & -> & ->). reflexivity.
  - rewrite (sbind_eq _ _ _ _ _ Em). destruct (He e) as (e' & -> & Hk & Hc). destruct H as [HR H].
    unfold ssim; simpl. split.
    { unfold sbind. destruct (M w) as [w2 [r0|x|]]; simpl in *; auto. }
    destruct rem as [z|].
    + intros r Hr'. apply sbind_ret in Hr' as (r0 & w2 & H1 & H2). simpl in H2.
      eapply Hr; eauto. apply H. rewrite H1; reflexivity.
    + rewrite Hc. destruct (er_con e).
      * intros r Hr'. apply sbind_ret in Hr' as (r0 & w2 & H1 & H2). simpl in H2.
        destruct (H r0) as [K1 K2]; [rewrite H1; reflexivity|].
        destruct (Hr _ _ H2 K1) as [K3 K4]. split; congruence || auto.
      * rewrite (sbind_eq _ _ _ _ _ H). simpl. rewrite Hk. reflexivity.
  - rewrite (sbind_raise _ _ _ _ _ Em), (sbind_raise _ _ _ _ _ H). reflexivity.
  - rewrite (sbind_nofuel _ _ _ _ Em), (sbind_nofuel _ _ _ _ H). reflexivity.
Qed.

(** the sequencing step shared by bind and seq *)
Lemma ssim_prepend {A} (rem rem' : option Z) x b (m : st St (sres T A)) (M : st St (res T A)) w :
  ssim rem' (m w) (M w) -> (b = true \/ rem' = rem) ->
  ssim rem (sbind m (fun r => slift (Ret (sres_prepend x b r))) w)
           (sbind M (fun r => slift (Ret (res_prepend x b r))) w).
Proof.
  intros H Hb. unfold ssim in H. destruct (m w) as [w1 [[o|e]|y|]] eqn:Em; simpl in H.
  - rewrite (sbind_eq _ _ _ _ _ Em), (sbind_eq _ _ _ _ _ H). reflexivity.
  - rewrite (sbind_eq _ _ _ _ _ Em). destruct H as [HR H]. unfold ssim; simpl. split.
    { unfold sbind. destruct (M w) as [w2 [r0|y|]]; simpl in *; auto. }
    assert (Hn : forall r0 w2, M w = (w2, Ret r0) -> not_ok r0).
    { intros r0 w2 H1. eapply (ssim_not_ok rem' w1 e (M w)); [|rewrite H1; reflexivity]. split; auto. }
    destruct rem as [z|].
    + intros r Hr. apply sbind_ret in Hr as (r0 & w2 & H1 & H2). simpl in H2. injection H2 as <-.
      apply not_ok_prepend. eauto.
    + assert (Hc : er_con (er_prepend x b e) = er_con e || b)
        by (apply (sres_prepend_con (T:=T) (A:=A) x b e)).
      rewrite Hc. destruct (er_con e || b) eqn:Hcb.
      * intros r Hr. apply sbind_ret in Hr as (r0 & w2 & H1 & H2). simpl in H2. injection H2 as <-.
        specialize (Hn _ _ H1). split; [apply not_ok_prepend; auto|].
        rewrite con_prepend by auto.
        destruct b; [destruct (res_con r0); auto|].
        destruct Hb as [Hb|Hb]; [discriminate|]. subst rem'.
        rewrite orb_false_r in *. rewrite Hcb in H. apply (H r0). rewrite H1; reflexivity.
      * apply orb_false_iff in Hcb as [He ->].
        destruct Hb as [Hb|Hb]; [discriminate|]. subst rem'.
        rewrite He in H. rewrite (sbind_eq _ _ _ _ _ H). reflexivity.
  - rewrite (sbind_raise _ _ _ _ _ Em), (sbind_raise _ _ _ _ _ H). reflexivity.
  - rewrite (sbind_nofuel _ _ _ _ Em), (sbind_nofuel _ _ _ _ H). reflexivity.
Qed.

Lemma res_fmap_st_ret {A B} (f : A -> st St B) (r : res T A) w r' :
  snd (res_fmap_st f r w) = Ret r' -> not_ok r -> not_ok r' /\ res_con r' = res_con r.
Proof.
  destruct r as [o|e|rc]; simpl; intros H Hn; try contradiction.
  - injection H as <-. auto.
  - apply sbind_ret in H as (rc' & w' & H1 & H2). simpl in H2. injection H2 as <-.
    unfold rec_fmap_st in H1. unfold sbind in H1.
    destruct (smap (rep_fmap_st f) (rc_reps rc) w) as [w2 [reps|x|]]; try discriminate.
    inversion H1; subst. simpl; auto.
Qed.
Lemma ssim_fmap {A B} (h : A -> st St B) rem (m : st St (sres T A)) (M : st St (res T A)) w :
  (forall a, moves R (h a)) ->
  ssim rem (m w) (M w) ->
  ssim rem (sbind m (sres_fmap_st h) w) (sbind M (res_fmap_st h) w).
Proof.
  intros Hmv H. unfold ssim in H. destruct (m w) as [w1 [[o|e]|y|]] eqn:Em; simpl in H.
  - rewrite (sbind_eq _ _ _ _ _ Em), (sbind_eq _ _ _ _ _ H). simpl. unfold ok_fmap_st, sbind.
    destruct (h (ok_val o) w1) as [w2 [v|x|]]; reflexivity.
  - rewrite (sbind_eq _ _ _ _ _ Em). destruct H as [HR H]. unfold ssim; simpl. split.
    { unfold sbind. destruct (M w) as [w2 [r0|y|]]; simpl in *; auto.
      eapply Rtrans; [exact HR|]. apply mv_res_fmap; auto. }
    destruct rem as [z|].
    + intros r Hr. apply sbind_ret in Hr as (r0 & w2 & H1 & H2).
      apply res_fmap_st_ret in H2; [tauto|]. apply H. rewrite H1; reflexivity.
    + destruct (er_con e).
      * intros r Hr. apply sbind_ret in Hr as (r0 & w2 & H1 & H2).
        destruct (H r0) as [K1 K2]; [rewrite H1; reflexivity|].
        apply res_fmap_st_ret in H2; [|auto]. destruct H2. split; congruence || auto.
      * rewrite (sbind_eq _ _ _ _ _ H). reflexivity.
  - rewrite (sbind_raise _ _ _ _ _ Em), (sbind_raise _ _ _ _ _ H). reflexivity.
  - rewrite (sbind_nofuel _ _ _ _ Em), (sbind_nofuel _ _ _ _ H). reflexivity.
Qed.

Lemma continue_st_ret {A B C} (ra : recr T A) ins
    (f : A -> nat -> ctx T -> Z -> st St (res T B)) (merge : A -> B -> C) w r :
  snd (continue_st ra ins f merge w) = Ret r -> not_ok r /\ res_con r = rc_con ra.
Proof.
  unfold continue_st. intros H. apply sbind_ret in H as (reps & w' & _ & H). simpl in H.
  injection H as <-. simpl; auto.
Qed.

Lemma ssim_bind_gen {A B} (m : st St (sres T A)) (M : st St (res T A)) rem w
   (kf : okr T A -> st St (sres T B)) (kF : okr T A -> st St (res T B))
   (kR : recr T A -> st St (res T B)) :
  ssim rem (m w) (M w) ->
  (forall o w, ssim rem (kf o w) (kF o w)) ->
  (forall rc w r, snd (kR rc w) = Ret r -> not_ok r /\ res_con r = rc_con rc) ->
  (forall rc, moves R (kR rc)) -> (forall o, moves R (kF o)) ->
  ssim rem (sbind m (fun ra => match ra with SErr e => slift (Ret (SErr e)) | SOk o => kf o end) w)
          (sbind M (fun ra => match ra with RErr e => slift (Ret (RErr e)) | RRec ra => kR ra
                               | ROk o => kF o end) w).
Proof.
  intros H Hk HR' Hmv HmvF. unfold ssim in H. destruct (m w) as [w1 [[o|e]|y|]] eqn:Em; simpl in H.
  - rewrite (sbind_eq _ _ _ _ _ Em), (sbind_eq _ _ _ _ _ H). apply Hk.
  - rewrite (sbind_eq _ _ _ _ _ Em). destruct H as [HR H].
    unfold ssim; simpl. split.
    { unfold sbind. destruct (M w) as [w2 [[o|e'|rc]|y|]]; simpl in *; auto;
        (eapply Rtrans; [exact HR|]); [apply HmvF|apply Hmv]. }
    assert (HX : forall r0 w2 r, not_ok r0 ->
      snd (match r0 with RErr e => slift (Ret (RErr e)) | RRec ra => kR ra | ROk o => kF o end w2) = Ret r ->
      not_ok r /\ res_con r = res_con r0).
    { intros [o|e'|rc] w2 r Hn Hr; simpl in *; try contradiction; [injection Hr as <-; auto|eauto]. }
    destruct rem as [z|].
    + intros r Hr. apply sbind_ret in Hr as (r0 & w2 & H1 & H2).
      eapply HX; [|exact H2]. apply H. rewrite H1; reflexivity.
    + destruct (er_con e).
      * intros r Hr. apply sbind_ret in Hr as (r0 & w2 & H1 & H2).
        destruct (H r0) as [K1 K2]; [rewrite H1; reflexivity|].
        destruct (HX _ _ _ K1 H2). split; congruence || auto.
      * rewrite (sbind_eq _ _ _ _ _ H). reflexivity.
  - rewrite (sbind_raise _ _ _ _ _ Em), (sbind_raise _ _ _ _ _ H). reflexivity.
  - rewrite (sbind_nofuel _ _ _ _ Em), (sbind_nofuel _ _ _ _ H). reflexivity.
Qed.
Lemma sbind_assoc {A B C} (m : st St A) (f : A -> st St B) (g : B -> st St C) w :
  sbind (sbind m f) g w = sbind m (fun x => sbind (f x) g) w.
Proof. unfold sbind. destruct (m w) as [w' [a|e|]]; reflexivity. Qed.

(** the same run, with the result of the plain function *)
Lemma ssim_lift {A} rem (f : out (sres T A)) (F : out (res T A)) w :
  sim rem f F -> ssim rem (slift f w) (slift F w).
Proof.
  unfold slift, ssim, sim; simpl. destruct f as [[o|e]|x|]; try (intros ->; reflexivity).
  intros H. split; [apply Rrefl|]. destruct rem; auto. destruct (er_con e); auto. rewrite H; reflexivity.
Qed.

(** ** 3. The combinators *)
Lemma ssim_alt {A} (pf qf : psf St T A) (pF qF : psr St T A) s pos c ins rem w :
  (forall w, ssim None (pf s pos c w) (pF s pos c ins None w)) ->
  (forall w, ssim None (qf s pos c w) (qF s pos c ins None w)) ->
  (forall rem, moves R (pF s pos c ins rem)) -> (forall rem, moves R (qF s pos c ins rem)) ->
  ssim rem (alt_sf pf qf s pos c w) (alt_sr pF qF s pos c ins rem w).
Proof.
  intros Hp Hq Mp Mq. unfold alt_sf, alt_sr.
  assert (MR : forall la x, moves R (alt_recover_sr pF qF la x s pos c ins rem)).
  { intros. unfold alt_recover_sr. mgo. }
  specialize (Hp w). unfold ssim in Hp.
  destruct (pf s pos c w) as [w1 [[oa|ea]|x|]] eqn:Ep; simpl in Hp.
  - rewrite (sbind_eq _ _ _ _ _ Ep), (sbind_eq _ _ _ _ _ Hp). reflexivity.
  - rewrite (sbind_eq _ _ _ _ _ Ep). destruct Hp as [HR Hp]. destruct (er_con ea) eqn:Eca.
    + unfold ssim; simpl. split.
      { set (K := fun ra : res T A => _). unfold sbind at 1.
        destruct (pF s pos c ins None w) as [w2 [r0|y|]] eqn:EF; simpl in *; auto.
        eapply Rtrans; [exact HR|].
        assert (MK : forall r, moves R (K r)) by (intros r; unfold K; clear - Mp Mq MR Rrefl Rtrans Rre; mgo); apply MK. }
      assert (HX : forall r, snd (alt_sr pF qF s pos c ins rem w) = Ret r -> not_ok r /\ res_con r = true).
      { intros r Hr. unfold alt_sr in Hr. apply sbind_ret in Hr as (r0 & w2 & H1 & H2).
        destruct (Hp r0) as [K1 K2]; [rewrite H1; reflexivity|].
        destruct r0 as [o|[l xx cc]|[rs mm l xx cc]]; simpl in K1, K2; try contradiction; subst cc;
          simpl in H2; injection H2 as <-; simpl; auto. }
      unfold alt_sr in HX. destruct rem; [intros r Hr; apply HX in Hr; tauto|]. rewrite Eca. exact HX.
    + rewrite (sbind_eq _ _ _ _ _ Hp). destruct ea as [la xa ca]; simpl in Eca; subst ca.
      specialize (Hq w1). unfold ssim in Hq.
      destruct (qf s pos c w1) as [w2 [[ob|eb]|x|]] eqn:Eq; simpl in Hq.
      * rewrite (sbind_eq _ _ _ _ _ Eq), (sbind_eq _ _ _ _ _ Hq). simpl.
        destruct (ok_con ob) eqn:Ecb; reflexivity.
      * rewrite (sbind_eq _ _ _ _ _ Eq). destruct Hq as [HRq Hq]. destruct (er_con eb) eqn:Ecb.
        { simpl. rewrite Ecb. unfold ssim; simpl.
          set (K := fun rb : res T A => _).
          assert (HX : forall r, snd (sbind (qF s pos c ins None) K w1) = Ret r -> not_ok r /\ res_con r = true).
          { intros r Hr. apply sbind_ret in Hr as (r0 & w3 & H1 & H2).
            destruct (Hq r0) as [K1 K2]; [rewrite H1; reflexivity|]. unfold K in H2. rewrite K2 in H2.
            simpl in H2. injection H2 as <-. auto. }
          split.
          { unfold sbind. destruct (qF s pos c ins None w1) as [w3 [r0|y|]] eqn:EF; simpl in *; auto.
            eapply Rtrans; [exact HRq|]. assert (MK : forall r, moves R (K r)) by (intros r; unfold K; clear - Mp Mq MR Rrefl Rtrans Rre; mgo); apply MK. }
          destruct rem; [intros r Hr; apply HX in Hr; tauto|]. rewrite Ecb. exact HX. }
        { rewrite (sbind_eq _ _ _ _ _ Hq). simpl. rewrite Ecb. simpl. unfold ssim; simpl. split; [apply MR|].
          destruct rem; simpl; auto. intros r Hr. unfold alt_recover_sr in Hr.
          apply sbind_ret in Hr as (rra & w3 & _ & Hr). apply sbind_ret in Hr as (rrb & w4 & _ & Hr).
          destruct rra, rrb; simpl in Hr; injection Hr as <-; exact I. }
      * rewrite (sbind_raise _ _ _ _ _ Eq), (sbind_raise _ _ _ _ _ Hq). reflexivity.
      * rewrite (sbind_nofuel _ _ _ _ Eq), (sbind_nofuel _ _ _ _ Hq). reflexivity.
  - rewrite (sbind_raise _ _ _ _ _ Ep), (sbind_raise _ _ _ _ _ Hp). reflexivity.
  - rewrite (sbind_nofuel _ _ _ _ Ep), (sbind_nofuel _ _ _ _ Hp). reflexivity.
Qed.

Lemma ssim_maybe {A} (m : st St (sres T A)) (M : st St (res T A)) pos c rem w :
  ssim None (m w) (M w) ->
  ssim rem
    (sbind m (fun r => match r with
      | SOk _ => slift (sres_fmap (fun v => Ret (Some v)) r)
      | SErr e => if er_con e then slift (Ret (SErr e))
                  else slift (Ret (SOk (Ok None pos c (er_exp e) false)))
      end) w)
    (sbind M (fun r => slift (match r with
      | ROk _ => res_fmap (fun v => Ret (Some v)) r
      | _ => if res_con r then res_fmap (fun v => Ret (Some v)) r
             else Ret (ROk (Ok None pos c (res_exp r) false))
      end)) w).
Proof.
  intros H. unfold ssim in H. destruct (m w) as [w1 [[o|e]|y|]] eqn:Em; simpl in H.
  - rewrite (sbind_eq _ _ _ _ _ Em), (sbind_eq _ _ _ _ _ H). reflexivity.
  - rewrite (sbind_eq _ _ _ _ _ Em). destruct H as [HR H]. destruct (er_con e) eqn:Ec.
    + unfold ssim; simpl. split.
      { unfold sbind. destruct (M w) as [w2 [r0|y|]]; simpl in *; auto. }
      set (K := fun r : res T A => _).
      assert (HX : forall r, snd (sbind M K w) = Ret r -> not_ok r /\ res_con r = true).
      { intros r Hr. apply sbind_ret in Hr as (r0 & w2 & H1 & H2).
        destruct (H r0) as [K1 K2]; [rewrite H1; reflexivity|]. unfold K in H2. simpl in H2.
        rewrite K2 in H2.
        assert (H3 : res_fmap (fun v => Ret (Some v)) r0 = Ret r) by (destruct r0; auto).
        apply res_fmap_ret in H3 as [H3 H4]. split; auto. congruence. }
      destruct rem; [intros r Hr; apply HX in Hr; tauto|]. rewrite Ec. exact HX.
    + rewrite (sbind_eq _ _ _ _ _ H). simpl. rewrite Ec. reflexivity.
  - rewrite (sbind_raise _ _ _ _ _ Em), (sbind_raise _ _ _ _ _ H). reflexivity.
  - rewrite (sbind_nofuel _ _ _ _ Em), (sbind_nofuel _ _ _ _ H). reflexivity.
Qed.

Lemma ssim_many {A} (pf : psf St T A) (pF : psr St T A) s ins rem :
  (forall pos c w, ssim None (pf s pos c w) (pF s pos c ins None w)) ->
  (forall pos c rem, moves R (pF s pos c ins rem)) ->
  forall n con v pos c w,
  ssim rem (many_sf pf n con v s pos c w) (many_sr pF n con v s pos c ins w).
Proof.
  intros H Mp n. induction n as [|n IH]; intros con v pos c w; simpl; [reflexivity|].
  specialize (H pos c w). unfold ssim in H. destruct (pf s pos c w) as [w1 [[o|e]|y|]] eqn:Em; simpl in H.
  - rewrite (sbind_eq _ _ _ _ _ Em), (sbind_eq _ _ _ _ _ H). destruct (ok_con o); [apply IH|reflexivity].
  - rewrite (sbind_eq _ _ _ _ _ Em). destruct H as [HR H]. destruct (er_con e) eqn:Ec.
    + unfold ssim; simpl. set (K := fun r : res T A => _). split.
      { unfold sbind. destruct (pF s pos c ins None w) as [w2 [r0|y|]]; simpl in *; auto.
        eapply Rtrans; [exact HR|].
        assert (MR : forall con v pos c, moves R (many_sr pF n con v s pos c ins)) by (apply mv_many_r; auto).
        assert (MK : forall r, moves R (K r)); [|apply MK]. intros r; unfold K; clear - MR Rrefl Rtrans Mp Rre. destruct r as [o|e|rc]; [mgo|mgo|]. apply mv_continue. auto. }
      assert (HX : forall r, snd (sbind (pF s pos c ins None) K w) = Ret r -> not_ok r /\ res_con r = true).
      { intros r Hr. apply sbind_ret in Hr as (r0 & w2 & H1 & H2).
        destruct (H r0) as [K1 K2]; [rewrite H1; reflexivity|]. unfold K in H2.
        destruct r0 as [o|e0|rc]; simpl in K1, K2; try contradiction.
        - rewrite K2 in H2. simpl in H2. injection H2 as <-. auto.
        - apply continue_st_ret in H2. rewrite K2 in H2. auto. }
      destruct rem; [intros r Hr; apply HX in Hr; tauto|]. rewrite Ec. exact HX.
    + rewrite (sbind_eq _ _ _ _ _ H). rewrite Ec. reflexivity.
  - rewrite (sbind_raise _ _ _ _ _ Em), (sbind_raise _ _ _ _ _ H). reflexivity.
  - rewrite (sbind_nofuel _ _ _ _ Em), (sbind_nofuel _ _ _ _ H). reflexivity.
Qed.

Lemma ssim_attempt {A} (pf : psf St T A) (pF : psr St T A) s pos c ins rem w :
  ssim rem (pf s pos c w) (pF s pos c ins rem w) ->
  ssim rem (attempt_sf pf s pos c w) (attempt_sr pf pF s pos c ins rem w).
Proof.
  intros H. unfold attempt_sf, attempt_sr. destruct rem as [z|].
  - unfold sbind, ssim in *. destruct (pf s pos c w) as [w1 [[o|e]|y|]]; simpl in *; auto.
  - unfold sbind, ssim in *. destruct (pf s pos c w) as [w1 [[o|e]|y|]]; simpl in *; auto.
Qed.

Lemma ssim_recover {A} (pf : psf St T A) (pF : psr St T A) s pos c ins rem w :
  ssim rem (pf s pos c w) (pF s pos c ins rem w) ->
  ssim rem (pf s pos c w) (recover_sr pF s pos c ins rem w).
Proof.
  intros H. unfold recover_sr.
  assert (K : forall m : st St (sres T A), m w = sbind m (fun r => slift (Ret r)) w).
  { intros m. unfold sbind. destruct (m w) as [w1 [r|y|]]; reflexivity. }
  rewrite (K (pf s pos c)). apply ssim_map; auto.
  - eauto.
  - eauto.
  - intros [o|e|rc] r Hr Hn; simpl in *; try contradiction; injection Hr as <-; auto.
Qed.

Lemma ssim_recover_with {A} (pf : psf St T A) (pF : psr St T A) mk lab s pos c ins rem w :
  (forall s i, moves R (mk s i)) ->
  ssim rem (pf s pos c w) (pF s pos c ins rem w) ->
  ssim rem (pf s pos c w) (recover_with_sr pF mk lab s pos c ins rem w).
Proof.
  intros Hmk H. unfold recover_with_sr. destruct rem as [z|]; auto.
  unfold ssim in H. destruct (pf s pos c w) as [w1 [[o|e]|y|]] eqn:Em; simpl in H.
  - rewrite (sbind_eq _ _ _ _ _ H). reflexivity.
  - destruct H as [HR H]. unfold ssim; simpl. split.
    { set (K := fun ra : res T A => _). unfold sbind at 1.
      destruct (pF s pos c ins (Some z) w) as [w2 [r0|y|]]; simpl in *; auto.
      eapply Rtrans; [exact HR|]. assert (MK : forall r, moves R (K r)) by (intros r; unfold K; clear - Hmk Rrefl Rtrans Rre; mgo); apply MK. }
    intros r Hr. apply sbind_ret in Hr as (r0 & w2 & H1 & H2).
    assert (Hn : not_ok r0) by (apply H; rewrite H1; reflexivity).
    destruct r0 as [o|er|rc]; simpl in Hn; try contradiction; cbn [res_con] in H2.
    + destruct (er_con er); [simpl in H2; injection H2 as <-; exact I|].
      destruct (Z.eqb z 0); [simpl in H2; injection H2 as <-; exact I|].
      apply sbind_ret in H2 as (x & w3 & _ & H2). simpl in H2. injection H2 as <-. exact I.
    + destruct (rc_con rc); [simpl in H2; injection H2 as <-; exact I|].
      destruct (Z.eqb z 0); [simpl in H2; injection H2 as <-; exact I|].
      apply sbind_ret in H2 as (x & w3 & _ & H2). simpl in H2. injection H2 as <-. exact I.
  - rewrite (sbind_raise _ _ _ _ _ H). reflexivity.
  - rewrite (sbind_nofuel _ _ _ _ H). reflexivity.
Qed.

Lemma sbind_lift2 {A B C} (m : st St A) (h : A -> out B) (k : B -> out C) w :
  sbind m (fun r => slift (obind (h r) k)) w = sbind (sbind m (fun r => slift (h r))) (fun x => slift (k x)) w.
Proof.
  unfold sbind. destruct (m w) as [w' [a|e|]]; try reflexivity. unfold slift. destruct (h a); reflexivity.
Qed.

Lemma ssim_seq {A B C} (pf : psf St T A) (pF : psr St T A)
   (qf : psf St T B) (qF : psr St T B) (merge : A -> B -> C) s pos c ins rem w :
  ssim rem (pf s pos c w) (pF s pos c ins rem w) ->
  (forall pos c rem w, ssim rem (qf s pos c w) (qF s pos c ins rem w)) ->
  (forall pos c rem, moves R (qF s pos c ins rem)) ->
  ssim rem (seq_sf pf qf merge s pos c w) (seq_sr pF qF merge s pos c ins rem w).
Proof.
  intros Hp Hq Mq. unfold seq_sf, seq_sr.
  apply (ssim_bind_gen (pf s pos c) (pF s pos c ins rem) rem w
    (fun oa => sbind (qf s (ok_pos oa) (ok_ctx oa)) (fun rb => slift (rc <- sres_fmap (fun vb => Ret (merge (ok_val oa) vb)) rb ;;
              Ret (sres_prepend (ok_exp oa) (ok_con oa) rc))))
    (fun oa => sbind (qF s (ok_pos oa) (ok_ctx oa) ins (if ok_con oa then Some ins else rem))
       (fun rb => slift (rc <- res_fmap (fun vb => Ret (merge (ok_val oa) vb)) rb ;;
              Ret (res_prepend (ok_exp oa) (ok_con oa) rc))))
    (fun ra => continue_st ra ins (fun _ p c r => qF s p c ins (Some r)) merge)); auto.
  - intros o w'. rewrite !sbind_lift2.
    apply ssim_prepend with (rem' := if ok_con o then Some ins else rem).
    + apply ssim_map; [| | |apply Hq].
      * intros o'. eexists. split; reflexivity.
      * intros e. eexists. split; [reflexivity|]. split; reflexivity.
      * intros r0 r Hr Hn. apply res_fmap_ret in Hr as [H1 H2]. auto.
    + destruct (ok_con o); auto.
  - intros. eapply continue_st_ret; eauto.
  - intros. apply mv_continue. auto.
  - intros. mgo.
Qed.

Lemma ssim_bind {A B G} (pf : psf St T A) (pF : psr St T A) (f : A -> st St G)
   (rf : G -> psf St T B) (rF : G -> psr St T B) s pos c ins rem w :
  ssim rem (pf s pos c w) (pF s pos c ins rem w) ->
  (forall a w g w', f a w = (w', Ret g) -> forall pos c rem w, ssim rem (rf g s pos c w) (rF g s pos c ins rem w)) ->
  (forall a w, R w (fst (f a w))) ->
  (forall a w g w', f a w = (w', Ret g) -> forall pos c rem, moves R (rF g s pos c ins rem)) ->
  ssim rem (bind_sf pf f rf s pos c w) (bind_sr pF f rF s pos c ins rem w).
Proof.
  intros Hp Hg Mf Mg. unfold bind_sf, bind_sr.
  assert (MC : forall a p c r, moves R (sbind (f a) (fun g => rF g s p c ins r))).
  { intros a p c0 r w0. unfold sbind. pose proof (Mf a w0) as M0. destruct (f a w0) as [w1 [g|e|]] eqn:Ef; simpl in *; auto.
    eapply Rtrans; [exact M0|]. eapply Mg; eauto. }
  apply (ssim_bind_gen (pf s pos c) (pF s pos c ins rem) rem w
    (fun oa => sbind (f (ok_val oa)) (fun g => sbind (rf g s (ok_pos oa) (ok_ctx oa)) (fun rb => slift (Ret (sres_prepend (ok_exp oa) (ok_con oa) rb)))))
    (fun oa => sbind (f (ok_val oa)) (fun g => sbind (rF g s (ok_pos oa) (ok_ctx oa) ins (if ok_con oa then Some ins else rem)) (fun rb => slift (Ret (res_prepend (ok_exp oa) (ok_con oa) rb)))))
    (fun ra => continue_st ra ins (fun v p c r => sbind (f v) (fun g => rF g s p c ins (Some r))) (fun _ v => v))); auto.
  - intros o w'. unfold sbind at 1 3. destruct (f (ok_val o) w') as [w1 [g|e|]] eqn:Ef; try reflexivity.
    apply ssim_prepend with (rem' := if ok_con o then Some ins else rem).
    + eapply Hg; eauto.
    + destruct (ok_con o); auto.
  - intros. eapply continue_st_ret; eauto.
  - intros. apply mv_continue. auto.
  - intros o w0. unfold sbind at 1. pose proof (Mf (ok_val o) w0) as M0.
    destruct (f (ok_val o) w0) as [w1 [g|e|]] eqn:Ef; simpl in *; auto.
    eapply Rtrans; [exact M0|].
    assert (MM : forall pos c rem, moves R (rF g s pos c ins rem)) by (eapply Mg; eauto).
    match goal with |- R _ (fst (?m _)) => assert (K : moves R m) by mgo; apply K end.
Qed.

Lemma ssim_main (E : senv St T V) n : env_moves R E -> forall A (g : sgram St T V A) s pos c ins rem w,
  callbacks_move R g -> ssim rem (sfast E n g s pos c w) (sfull E n g s pos c ins rem w).
Proof.
  intros HE. induction n as [|n IH]; intros A g s pos c ins rem w Hg; [reflexivity|].
  pose proof (mv_full E n HE) as MF.
  pose proof (fun A (g0 : gram T V A) => sim_fast_full (fun _ => GUndef) 1 A g0 s pos c ins rem) as Prim.
  destruct g; simpl in Hg; cbn [sfast sfull];
    repeat match goal with H : _ /\ _ |- _ => destruct H end.
  - apply ssim_lift. exact (Prim _ (GPure x)).
  - unfold purefn_sf, purefn_sr, sbind. destruct (f tt w) as [w1 [a|e|]]; reflexivity.
  - apply ssim_lift. exact (Prim _ (GUnexpected l)).
  - apply ssim_lift. exact (Prim _ GEof).
  - unfold satisfy_sf, satisfy_sr. unfold sbind at 1 2.
    destruct (probe_tok_st test s pos w) as [w1 [[t|]|e|]]; try reflexivity.
    unfold ssim; simpl. split.
    + destruct rem; [|apply Rrefl]. 
      match goal with |- R _ (fst (?m _)) => assert (K : moves R m); [|apply K] end.
      apply mv_bind; [|mgo]. apply mv_skip. intros; apply mv_probe; auto.
    + destruct rem; [|reflexivity]. intros r Hr. apply sbind_ret in Hr as (x & w2 & _ & Hr).
      destruct x as [[cur t]|]; simpl in Hr; injection Hr as <-; exact I.
  - apply ssim_lift. exact (Prim _ (GSym teq x l)).
  - apply ssim_lift. exact (Prim _ (GLiteral teq x l)).
  - apply ssim_lift. exact (Prim _ (GRegexp m)).
  - unfold fmap_sf, fmap_sr. apply (ssim_fmap f rem (sfast E n g s pos c) (sfull E n g s pos c ins rem) w); auto.
  - apply ssim_alt; auto.
  - apply ssim_bind; auto.
    + intros a w0 g0 w1 Ef. intros. apply IH. pose proof (proj2 (H0 a w0)) as K. rewrite Ef in K. exact K.
    + intros a w0. apply H0.
    + intros a w0 g0 w1 Ef. intros. apply MF. pose proof (proj2 (H0 a w0)) as K. rewrite Ef in K. exact K.
  - apply ssim_seq; auto.
  - apply ssim_maybe; auto.
  - apply ssim_many; auto.
  - apply ssim_attempt; auto.
  - unfold label_sf, label_sr.
    apply (ssim_map rem (fun r => Ret (sres_set_exp [x] r)) (fun r => Ret (res_set_exp [x] r))
      (sfast E n g s pos c) (sfull E n g s pos c ins rem) w); auto.
    + intros o. eexists. split; reflexivity.
    + intros e. eexists. split; [reflexivity|]. split; [reflexivity|].
      unfold er_set_exp. destruct (er_con e) eqn:He; auto.
    + intros r0 r Hr Hn. injection Hr as <-. destruct r0 as [o|e|rc]; simpl in *; try contradiction; (split; [exact I|]); [|reflexivity].
      unfold er_set_exp. destruct (er_con e) eqn:He; auto.
  - apply ssim_recover; auto.
  - apply ssim_recover_with; [intros; apply mv_lift|auto].
  - apply ssim_recover_with; auto.
  - unfold block_sf, block_sr. cbv zeta.
    eapply ssim_map with (h := fun r => Ret (sres_set_ctx _ r)) (k := fun r => Ret (res_set_ctx _ r)); [| | |apply IH; auto].
    + intros o. eexists. split; reflexivity.
    + intros e. eexists. split; [reflexivity|]. split; reflexivity.
    + intros r0 r Hr Hn. injection Hr as <-. destruct r0 as [o|e|rc]; simpl in *; try contradiction; split; auto.
  - unfold aligned_sf, aligned_sr. cbv zeta. destruct (Z.eqb _ _); [auto|].
    apply ssim_lift. destruct rem; simpl; auto. intros r Hr. injection Hr as <-. exact I.
  - unfold indented_sf, indented_sr. cbv zeta. destruct (Z.eqb _ _).
    + eapply ssim_map with (h := fun r => Ret (sres_set_ctx _ r)) (k := fun r => Ret (res_set_ctx _ r)); [| | |apply IH; auto].
      * intros o. eexists. split; reflexivity.
      * intros e. eexists. split; [reflexivity|]. split; reflexivity.
      * intros r0 r Hr Hn. injection Hr as <-. destruct r0 as [o|e|rc]; simpl in *; try contradiction; split; auto.
    + apply ssim_lift. destruct rem; simpl; auto. intros r Hr. injection Hr as <-. exact I.
  - apply IH. apply HE.
  - reflexivity.
Qed.
End SSim.

(** every callback moves along the full relation *)
Fixpoint move_top {St T V} {A} (g : sgram St T V A) : callbacks_move (fun _ _ => True) g.
Proof.
  destruct g; simpl; try exact I; try (apply move_top).
  - intros w; exact I.
  - intros t w; exact I.
  - split; [apply move_top|intros a w; exact I].
  - split; apply move_top.
  - split; [apply move_top|]. intros a w. split; [exact I|].
    destruct (f a w) as [w' [q|e|]]; [apply move_top|exact I|exact I].
  - split; apply move_top.
  - split; [apply move_top|intros a i w; exact I].
Qed.
