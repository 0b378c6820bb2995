(** Property C80: the effects of callbacks in a plain parse are exactly those of the
    documented rules ([StatefulPegSpec.v]), in their order, and nothing is undone. *)
From Verif Require Import StatefulPeg StatefulSim PropsStateful PropsPeg Examples.

Section C80.
Context {St T : Type} {V : nat -> Type}.

Lemma sall_mono (P Q : forall A, sgram St T V A -> Prop) :
  (forall A g, P A g -> Q A g) -> forall A (g : sgram St T V A), sall P g -> sall Q g.
Proof.
  intros HPQ. fix IH 2. intros A g. destruct g; simpl; intros Hg; (split; [apply HPQ; apply Hg|]);
    destruct Hg as [_ Hg]; auto.
  - destruct Hg as [H1 H2]. split; apply IH; auto.
  - destruct Hg as [H1 H2]. split; [apply IH; exact H1|]. intros v w. specialize (H2 v w).
    destruct (f v w) as [w' [q|e|]]; auto.
  - destruct Hg as [H1 H2]. split; apply IH; auto.
Qed.
Lemma sall_and (P Q : forall A, sgram St T V A -> Prop) :
  forall A (g : sgram St T V A), sall P g -> sall Q g -> sall (fun A g => P A g /\ Q A g) g.
Proof.
  fix IH 2. intros A g. destruct g; simpl; intros Hp Hq; (split; [split; [apply Hp|apply Hq]|]);
    destruct Hp as [_ Hp]; destruct Hq as [_ Hq]; auto.
  - destruct Hp, Hq. split; apply IH; auto.
  - destruct Hp as [Hp1 Hp2], Hq as [Hq1 Hq2]. split; [apply IH; auto|]. intros v w.
    specialize (Hp2 v w). specialize (Hq2 v w). destruct (f v w) as [w' [q|e|]]; auto.
  - destruct Hp, Hq. split; apply IH; auto.
Qed.
Lemma sgok_swf (lay : Prop) A (g : sgram St T V A) :
  swf g -> (lay \/ sno_layout g) -> sgok lay g.
Proof.
  intros H [L|L].
  - eapply sall_mono; [|exact H]. simpl. auto.
  - eapply sall_mono; [|exact (sall_and _ _ _ _ H L)]. simpl. tauto.
Qed.
Lemma slay_gok (E : senv St T V) A (g : sgram St T V A) s locof :
  swf_env E -> swf g -> slay_ok E g s locof ->
  sgok (exactpos s locof) g /\ forall d, sgok (exactpos s locof) (E d).
Proof. intros HE Hg [L|[L1 L2]]; split; intros; apply sgok_swf; auto. Qed.

Lemma sparse_plain_abs (E : senv St T V) n A (g : sgram St T V A) s mi get fmt w w' x :
  sfast E n g s 0 (init_ctx get) w = (w', x) ->
  match abs x with
  | Some (PSucc v _) =>
      exists r, sparse E n g s false mi get fmt w = (w', Ret r) /\ unwrap r false = Returns v
  | Some (PFail _) =>
      exists r errs, sparse E n g s false mi get fmt w = (w', Ret r) /\ unwrap r false = Raises errs
  | Some (PExn e) => sparse E n g s false mi get fmt w = (w', Raise e)
  | None => sparse E n g s false mi get fmt w = (w', NoFuel)
  end.
Proof.
  intros H. unfold sparse, sbind. rewrite H. destruct x as [[o|e]|e|]; simpl;
    try reflexivity; do 2 eexists; try split; reflexivity.
Qed.
End C80.

(** ** Value, failure or exception, and the state that the callbacks leave *)
Theorem C80_effects_follow_the_rules :
  forall St T V (E : senv St T V) A (g : sgram St T V A) s mi get fmt locof w w',
  swf_env E -> swf g -> cohere get s locof -> slay_ok E g s locof ->
  let outcome o := speg E s (fun i => loc_col (locof i)) A g 0 0 w o w' in
  (forall v, (exists n r, sparse E n g s false mi get fmt w = (w', Ret r) /\ unwrap r false = Returns v)
     <-> exists j, outcome (PSucc v j)) /\
  ((exists n r errs, sparse E n g s false mi get fmt w = (w', Ret r) /\ unwrap r false = Raises errs)
     <-> exists b, outcome (PFail b)) /\
  (forall e, (exists n, sparse E n g s false mi get fmt w = (w', Raise e)) <-> outcome (PExn e)).
Proof.
  intros St T V E A g s mi get fmt locof w w' HE Hg Hco Hl outcome.
  destruct (slay_gok _ _ _ _ _ HE Hg Hl) as [G1 G2].
  assert (HS : forall n x o, sfast E n g s 0 (init_ctx get) w = (w', x) -> abs x = Some o -> outcome o).
  { intros n x o H Hx.
    destruct (speg_sound E s get locof _ Hco (fun x => x) G2 n A g 0 (init_ctx get) w G1 (Nat.le_0_l _)
      (pos_init get locof)) as [_ K].
    rewrite H in K. exact (K o Hx). }
  assert (HC : forall o, outcome o -> exists n x, sfast E n g s 0 (init_ctx get) w = (w', x) /\ abs x = Some o).
  { intros o H. exact (speg_complete E s get locof _ Hco (fun x => x) G2 A g 0 0 w o w' H G1 (Nat.le_0_l _)
      (init_ctx get) (pos_init get locof) eq_refl). }
  assert (HP := fun n w1 x => sparse_plain_abs E n A g s mi get fmt w w1 x).
  split; [|split].
  - intros v. split.
    + intros (n & r & H & Hu). destruct (sfast E n g s 0 (init_ctx get) w) as [w1 x] eqn:HF.
      specialize (HP n w1 x HF). specialize (HS n x).
      destruct (abs x) as [[u j|b|e]|].
      * destruct HP as (r' & K1 & K2). assert (v = u) by congruence. assert (w1 = w') by congruence.
        subst u w1. eauto.
      * destruct HP as (r' & errs & K1 & K2). congruence.
      * congruence.
      * congruence.
    + intros (j & H). apply HC in H as (n & x & H & Hx). specialize (HP n w' x H). rewrite Hx in HP. eauto.
  - split.
    + intros (n & r & errs & H & Hu). destruct (sfast E n g s 0 (init_ctx get) w) as [w1 x] eqn:HF.
      specialize (HP n w1 x HF). specialize (HS n x).
      destruct (abs x) as [[u j|b|e]|].
      * destruct HP as (r' & K1 & K2). congruence.
      * destruct HP as (r' & errs' & K1 & K2). assert (w1 = w') by congruence. subst w1. eauto.
      * congruence.
      * congruence.
    + intros (b & H). apply HC in H as (n & x & H & Hx). specialize (HP n w' x H). rewrite Hx in HP. eauto.
  - intros e. split.
    + intros (n & H). destruct (sfast E n g s 0 (init_ctx get) w) as [w1 x] eqn:HF.
      specialize (HP n w1 x HF). specialize (HS n x).
      destruct (abs x) as [[u j|b|e']|].
      * destruct HP as (r' & K1 & K2). congruence.
      * destruct HP as (r' & errs' & K1 & K2). congruence.
      * assert (e' = e) by congruence. assert (w1 = w') by congruence. subst e' w1. eauto.
      * congruence.
    + intros H. apply HC in H as (n & x & H & Hx). specialize (HP n w' x H). rewrite Hx in HP. eauto.
Qed.
Print Assumptions C80_effects_follow_the_rules.

(** ** With recovery switched on, a valid input has exactly these effects too *)
Theorem C80_valid_with_recovery :
  forall St T V (E : senv St T V) A (g : sgram St T V A) s mi get fmt locof w w' v,
  swf_env E -> swf g -> cohere get s locof -> slay_ok E g s locof ->
  (exists n r, sparse E n g s true mi get fmt w = (w', Ret r) /\ unwrap r false = Returns v) <->
  exists j, speg E s (fun i => loc_col (locof i)) A g 0 0 w (PSucc v j) w'.
Proof.
  intros St T V E A g s mi get fmt locof w w' v HE Hg Hco Hl.
  destruct (C80_effects_follow_the_rules St T V E A g s mi get fmt locof w w' HE Hg Hco Hl) as (H & _ & _).
  rewrite <- H. split; intros (n & K); exists n;
    apply (C59_valid_input St T V E n A g s mi mi get fmt w w' v); exact K.
Qed.
Print Assumptions C80_valid_with_recovery.

(** ** The rules determine the outcome and the final state *)
Theorem C80_deterministic :
  forall St T V (E : senv St T V) A (g : sgram St T V A) s m i w o o' w1 w2,
  swf_env E -> swf g -> i <= List.length s ->
  speg E s (fun _ => 0%Z) A g m i w o w1 -> speg E s (fun _ => 0%Z) A g m i w o' w2 -> o = o' /\ w1 = w2.
Proof.
  intros St T V E A g s m i w o o' w1 w2 HE Hg Hi H H'.
  assert (Hl : slay_ok E g s default_locof) by (left; apply default_exact).
  destruct (slay_gok _ _ _ _ _ HE Hg Hl) as [G1 G2].
  set (c := Ctx (T:=T) m (default_locof i) default_get_loc).
  assert (Hc : pos_Cok (T:=T) default_get_loc default_locof i c) by (split; [reflexivity|right; exists i; auto]).
  pose proof (fun o w' K => speg_complete E s default_get_loc default_locof _ (default_cohere s) (fun x => x)
    G2 A g m i w o w' K G1 Hi c Hc eq_refl) as HC.
  destruct (HC o w1 H) as (n & x & Hn & Hx), (HC o' w2 H') as (n' & x' & Hn' & Hx').
  assert (K : sfast E (n + n') g s i c w = (w1, x)).
  { eapply sfast_mono; eauto; [|lia]. intros ->; discriminate. }
  assert (K' : sfast E (n + n') g s i c w = (w2, x')).
  { eapply sfast_mono; eauto; [|lia]. intros ->; discriminate. }
  rewrite K in K'. injection K' as <- <-. split; congruence.
Qed.
Print Assumptions C80_deterministic.

(** ** For callbacks without effects these are the rules of C03 *)
Lemma swf_lift {St T V} A (g : gram T V A) : wf g -> swf (St:=St) (lift_gram g).
Proof.
  unfold wf, swf. induction g; simpl; intros Hg; (split; [|]); try exact I; try tauto; try (apply Hg); auto;
    try (apply IHg; apply Hg); try (split; [apply IHg1|apply IHg2]; apply Hg).
  split; [apply IHg; apply Hg|]. intros v _. apply H. apply Hg.
Qed.
Theorem C80_pure_callbacks :
  forall St T V (E : env T V) A (g : gram T V A) s m i o (w w' : St),
  wf_env E -> wf g -> i <= List.length s ->
  (speg (fun d => lift_gram (E d)) s (fun _ => 0%Z) A (lift_gram g) m i w o w' <->
   peg E s (fun _ => 0%Z) A g m i o /\ w' = w).
Proof.
  intros St T V E A g s m i o w w' HE Hg Hi.
  assert (Hl : lay_ok E g s default_locof) by (left; apply default_exact).
  destruct (lay_gok _ _ _ _ _ HE Hg Hl) as [G1 G2].
  assert (Hl' : slay_ok (St:=St) (lift_env E) (lift_gram g) s default_locof) by (left; apply default_exact).
  destruct (slay_gok (lift_env E) _ _ _ _ (fun d => swf_lift _ _ (HE d)) (swf_lift _ _ Hg) Hl') as [G3 G4].
  set (c := Ctx (T:=T) m (default_locof i) default_get_loc).
  assert (Hc : pos_Cok (T:=T) default_get_loc default_locof i c) by (split; [reflexivity|right; exists i; auto]).
  split.
  - intros H.
    destruct (speg_complete (lift_env E) s default_get_loc default_locof _ (default_cohere s) (fun x => x)
      G4 A _ m i w o w' H G3 Hi c Hc eq_refl) as (n & x & Hn & Hx).
    rewrite (same_fast (St:=St) E n A g s i c w) in Hn. injection Hn as <- <-. split; [|reflexivity].
    exact (peg_sound E s default_get_loc default_locof _ (default_cohere s) (fun x => x) G2 n A g i c o G1 Hi Hc Hx).
  - intros [H ->].
    destruct (peg_complete E s default_get_loc default_locof _ (default_cohere s) (fun x => x)
      G2 A g m i o H G1 Hi c Hc eq_refl) as [n Hn].
    destruct (speg_sound (lift_env E) s default_get_loc default_locof _ (default_cohere s) (fun x => x)
      G4 n A _ i c w G3 Hi Hc) as [_ K].
    rewrite (same_fast (St:=St) E n A g s i c w) in K. exact (K o Hn).
Qed.
Print Assumptions C80_pure_callbacks.

(** ** A repetition whose items are recorded by a callback: the record is the returned
    list, in its order, whatever the effect-free item parser is *)
Theorem C80_recorded_items :
  forall T V (E : env T V) n A (p : gram T V A) s mi get fmt w w' r l,
  sparse (lift_env E) n (XMany (XFmap (lift_gram p) (fun a w => (w ++ [a], Ret a)))) s false mi get fmt w = (w', Ret r) ->
  unwrap r false = Returns l ->
  w' = w ++ l.
Proof.
  intros T V E n A p s mi get fmt w w' r l. unfold sparse.
  destruct n as [|n]; [discriminate|]. rewrite sfast_many. unfold sbind at 1.
  assert (K : forall k con u pos c w w' o,
    many_sf (sfast (lift_env E) n (XFmap (lift_gram p) (fun a w => (w ++ [a], Ret a)))) k con u s pos c w = (w', Ret (SOk o)) ->
    exists t, ok_val o = u ++ t /\ w' = w ++ t).
  { induction k as [|k IH]; intros con u pos c w0 w1 o H; [discriminate|].
    rewrite many_sf_S in H.
    destruct n as [|n']; [discriminate|]. cbn [sfast] in H. unfold fmap_sf in H. unfold sbind at 1 in H.
    rewrite (same_fast (St:=list A) E n' A p s pos c w0) in H.
    destruct (fast E n' p s pos c) as [[o1|e]|e|]; cbn in H; try discriminate.
    - destruct (ok_con o1); [|discriminate].
      cbn [sfast] in IH. apply IH in H as (t & H1 & H2). exists (ok_val o1 :: t).
      rewrite H1, H2, <- !app_assoc. auto.
    - destruct (er_con e); [discriminate|]. injection H as <- <-. exists []. rewrite !app_nil_r. auto. }
  specialize (K n false [] 0 (init_ctx get) w).
  unfold sbind. destruct (many_sf _ n false [] s 0 (init_ctx get) w) as [w1 [[o|e]|e|]]; cbn; intros H Hu; try discriminate;
    injection H as <- <-; cbn in Hu; [|discriminate].
  destruct (K w1 o eq_refl) as (t & H1 & H2). unfold unwrap in Hu. cbn in Hu. injection Hu as <-. rewrite H1. exact H2.
Qed.
Print Assumptions C80_recorded_items.

(** ** Concrete cases: declarations and uses, and an alternative that failed *)
Example C80_case :
  swf st_items /\ swf_env (st_E (list char)) /\
  (exists j, speg (st_E (list char)) (ex_str "!aa!bab") (fun _ => 0%Z) _ st_items 0 0 [] (PSucc (ex_str "aabab") j) (ex_str "ab")) /\
  (exists b, speg (st_E (list char)) (ex_str "!a!bca") (fun _ => 0%Z) _ st_items 0 0 [] (PFail b) (ex_str "ab")) /\
  (let g := XAlt (XAttempt (st_pair (ex_ch "b"))) (st_pair (ex_ch "c")) in
   exists j, speg (st_E (list char)) (ex_str "ac") (fun _ => 0%Z) _ g 0 0 [] (PSucc (ex_ch "c") j) (ex_str "acac")).
Proof.
  assert (HE : swf_env (st_E (list char))) by (intros d; split; exact I).
  assert (Hg : swf st_items) by (unfold swf; simpl; tauto).
  assert (Hg' : swf (XAlt (XAttempt (st_pair (ex_ch "b"))) (st_pair (ex_ch "c")))) by (unfold swf; simpl; tauto).
  assert (Hl : forall B (g : st_gram (list char) B) s, slay_ok (st_E (list char)) g s default_locof)
    by (intros; left; apply default_exact).
  split; [exact Hg|]. split; [exact HE|]. split; [|split].
  - apply (C80_effects_follow_the_rules _ _ _ _ _ st_items (ex_str "!aa!bab") 5 default_get_loc default_fmt_loc
      default_locof [] (ex_str "ab") HE Hg (default_cohere _) (Hl _ _ _)).
    exists 30. eexists. split; vm_compute; reflexivity.
  - apply (C80_effects_follow_the_rules _ _ _ _ _ st_items (ex_str "!a!bca") 5 default_get_loc default_fmt_loc
      default_locof [] (ex_str "ab") HE Hg (default_cohere _) (Hl _ _ _)).
    exists 30. do 2 eexists. split; vm_compute; reflexivity.
  - apply (C80_effects_follow_the_rules _ _ _ _ _ _ (ex_str "ac") 5 default_get_loc default_fmt_loc
      default_locof [] (ex_str "acac") HE Hg' (default_cohere _) (Hl _ _ _)).
    exists 30. eexists. split; vm_compute; reflexivity.
Qed.
(** ... and a record of digits *)
Example C80_recorded_case :
  exists r, st_parse (XMany (XFmap (XSatisfy (fun t => slift (Ret (st_letter t)))) (fun a w => (w ++ [a], Ret a)))) "abc!" false [] =
    (ex_str "abc", Ret r) /\ unwrap r false = Returns (ex_str "abc").
Proof. eexists; split; vm_compute; reflexivity. Qed.
