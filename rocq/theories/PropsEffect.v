(** Property C82: the result, the diagnostics and the effects of callbacks, with recovery
    and without it, are exactly those of the rules of [EffectSpec.v]. *)
From Verif Require Import EffectComplete PropsRec PropsStateful PropsStatefulPeg PropsPeg Examples.

Section C82.
Context {St T : Type} {V : nat -> Type}.
Lemma egok_ewf (lay : Prop) A (g : sgram St T V A) :
  ewf g -> (lay \/ sno_layout g) -> egok lay g.
Proof.
  intros H [L|L].
  - eapply sall_mono; [|exact H]. simpl. auto.
  - eapply sall_mono; [|exact (sall_and _ _ _ _ H L)]. simpl. tauto.
Qed.
Lemma elay_gok (E : senv St T V) A (g : sgram St T V A) s locof :
  ewf_env E -> ewf g -> slay_ok E g s locof ->
  egok (exactpos s locof) g /\ forall d, egok (exactpos s locof) (E d).
Proof. intros HE Hg [L|[L1 L2]]; split; intros; apply egok_ewf; auto. Qed.

(** one mode of [parse] *)
Definition run_mode (recover : bool) (mi : Z) : mode := if recover then Rec mi (Some mi) else Plain.

Lemma sparse_urun (E : senv St T V) n A (g : sgram St T V A) s recover mi get fmt w :
  sparse E n g s recover mi get fmt w =
  match urun E n (run_mode recover mi) g s 0 (init_ctx get) w with
  | (w1, Ret r) => (w1, Ret (ResultWrapper r fmt))
  | (w1, Raise e) => (w1, Raise e)
  | (w1, NoFuel) => (w1, NoFuel)
  end.
Proof.
  unfold sparse, sbind at 1. destruct recover; cbn [run_mode urun].
  - destruct (sfull E n g s 0 (init_ctx get) mi (Some mi) w) as [w1 [r|e|]]; reflexivity.
  - destruct (sbind _ _ w) as [w1 [r|e|]]; reflexivity.
Qed.

(** at any position and mark *)
Lemma eff_iff (E : senv St T V) A (g : sgram St T V A) s get locof :
  ewf_env E -> ewf g -> cohere get s locof -> slay_ok E g s locof ->
  forall i c md w o w', i <= List.length s -> pos_Cok (T:=T) get locof i c ->
  (exists n x, urun E n md g s i c w = (w', x) /\ rabs x = Some o) <->
  eff E s locof A g (ctx_mark c) i md w o w'.
Proof.
  intros HE Hg Hco Hl i c md w o w' Hi Hc. destruct (elay_gok _ _ _ _ _ HE Hg Hl) as [G1 G2]. split.
  - intros (n & x & H & Hx).
    destruct (eff_sound E s get locof _ Hco (fun x => x) G2 n A g md i c w G1 Hi Hc) as [_ K].
    rewrite H in K. exact (K o Hx).
  - intros H. exact (eff_complete E s get locof _ Hco (fun x => x) G2 A g _ i md w o w' H G1 Hi c Hc eq_refl).
Qed.
End C82.

(** ** [parse(s, recover=..., max_insertions=mi)] with stateful callbacks: what [unwrap] shows
    with and without [recover=True], which exceptions escape, and the final state *)
Theorem C82_effects_with_recovery :
  forall St T V (E : senv St T V) A (g : sgram St T V A) s (recover : bool) mi get fmt locof w w',
  ewf_env E -> ewf g -> cohere get s locof -> slay_ok E g s locof ->
  let outcome o := eff E s locof A g 0 0 (if recover then Rec mi (Some mi) else Plain) w o w' in
  (forall rec u,
     (exists n r, sparse E n g s recover mi get fmt w = (w', Ret r) /\ unwrap r rec = u) <->
     (exists o, outcome o /\ verdict fmt rec o u)) /\
  (forall e, (exists n, sparse E n g s recover mi get fmt w = (w', Raise e)) <-> outcome (RExn e)).
Proof.
  intros St T V E A g s recover mi get fmt locof w w' HE Hg Hco Hl outcome.
  pose proof (fun o => eff_iff E A g s get locof HE Hg Hco Hl 0 (init_ctx get) (run_mode recover mi) w o w'
    (Nat.le_0_l _) (pos_init _ _)) as HR.
  cbn [ctx_mark init_ctx] in HR. split.
  - intros rec u. split.
    + intros (n & r & H & Hu). rewrite sparse_urun in H.
      destruct (urun E n _ g s 0 (init_ctx get) w) as [w1 [x|e|]] eqn:Hx; try discriminate.
      injection H as <- <-. exists (rab x). split.
      * apply HR. exists n, (Ret x). rewrite Hx. split; reflexivity.
      * exact (proj1 (unwrap_verdict (ResultWrapper x fmt) rec u) Hu).
    + intros (o & H & Hv). apply HR in H as (n & x & H & Hx).
      destruct x as [x|e|]; cbn in Hx; try discriminate; injection Hx as <-.
      * exists n, (ResultWrapper x fmt). rewrite sparse_urun, H. split; [reflexivity|].
        apply unwrap_verdict. exact Hv.
      * contradiction.
  - intros e. split.
    + intros (n & H). rewrite sparse_urun in H.
      destruct (urun E n _ g s 0 (init_ctx get) w) as [w1 [x|e'|]] eqn:Hx; try discriminate.
      injection H as <- <-. apply HR. exists n, (Raise e'). rewrite Hx. split; reflexivity.
    + intros H. apply HR in H as (n & x & H & Hx). apply rabs_exn in Hx. subst x.
      exists n. rewrite sparse_urun, H. reflexivity.
Qed.
Print Assumptions C82_effects_with_recovery.

(** ** The rules determine outcome and final state *)
Theorem C82_deterministic :
  forall St T V (E : senv St T V) A (g : sgram St T V A) s m i md w o o' w1 w2,
  ewf_env E -> ewf g -> i <= List.length s ->
  eff E s default_locof A g m i md w o w1 -> eff E s default_locof A g m i md w o' w2 -> o = o' /\ w1 = w2.
Proof.
  intros St T V E A g s m i md w o o' w1 w2 HE Hg Hi H H'.
  assert (Hl : slay_ok E g s default_locof) by (left; apply default_exact).
  set (c := Ctx (T:=T) m (default_locof i) default_get_loc).
  assert (Hc : pos_Cok (T:=T) default_get_loc default_locof i c) by (split; [reflexivity|right; exists i; auto]).
  pose proof (fun o w' => proj2 (eff_iff E A g s _ _ HE Hg (default_cohere s) Hl i c md w o w' Hi Hc)) as HC.
  destruct (HC o w1 H) as (n & x & Hn & Hx), (HC o' w2 H') as (n' & x' & Hn' & Hx').
  assert (K : urun E (n + n') md g s i c w = (w1, x)).
  { eapply urun_mono; eauto; [|lia]. intros ->; discriminate. }
  assert (K' : urun E (n + n') md g s i c w = (w2, x')).
  { eapply urun_mono; eauto; [|lia]. intros ->; discriminate. }
  rewrite K in K'. injection K' as <- <-. split; congruence.
Qed.
Print Assumptions C82_deterministic.

(** ** For callbacks without effects these are the rules of C44 and C43 *)
Lemma ewf_lift {St T V} A (g : gram T V A) : wf g -> ewf (St:=St) (lift_gram g).
Proof.
  unfold wf, ewf. induction g; simpl; intros Hg; (split; [|]); try exact I; try tauto; try (apply Hg); auto;
    try (apply IHg; apply Hg); try (split; [apply IHg1|apply IHg2]; apply Hg).
  split; [apply IHg; apply Hg|]. intros v _. apply H. apply Hg.
Qed.
Theorem C82_pure_callbacks :
  forall St T V (E : env T V) A (g : gram T V A) s m i (w w' : St),
  wf_env E -> wf g -> i <= List.length s ->
  (forall ins rem o,
    eff (fun d => lift_gram (E d)) s default_locof A (lift_gram g) m i (Rec ins rem) w o w' <->
    rsem E s default_locof A g m i ins rem o /\ w' = w) /\
  (forall o,
    eff (fun d => lift_gram (E d)) s default_locof A (lift_gram g) m i Plain w (plain o) w' <->
    diag E s default_locof A g m i o /\ w' = w).
Proof.
  intros St T V E A g s m i w w' HE Hg Hi.
  assert (Hl : lay_ok E g s default_locof) by (left; apply default_exact).
  destruct (lay_gok _ _ _ _ _ HE Hg Hl) as [G1 G2].
  assert (Hl' : slay_ok (St:=St) (lift_env E) (lift_gram g) s default_locof) by (left; apply default_exact).
  set (c := Ctx (T:=T) m (default_locof i) default_get_loc).
  assert (Hc : pos_Cok (T:=T) default_get_loc default_locof i c) by (split; [reflexivity|right; exists i; auto]).
  pose proof (fun md o => eff_iff (lift_env E) A (lift_gram g) s _ _ (fun d => ewf_lift _ _ (HE d)) (ewf_lift _ _ Hg)
    (default_cohere s) Hl' i c md w o w' Hi Hc) as HX. cbn [ctx_mark c] in HX.
  split.
  - intros ins rem o. change (fun d => lift_gram (E d)) with (lift_env (St:=St) E). rewrite <- HX.
    rewrite <- (C44_anywhere T V E A g s default_get_loc default_locof m i ins rem o HE Hg (default_cohere s) Hl Hi).
    fold c. cbn [urun]. split.
    + intros (n & x & H & Hx). rewrite (same_full (St:=St) E n A g s i c ins rem w) in H. injection H as <- <-. eauto.
    + intros [[n H] ->]. exists n, (full E n g s i c ins rem).
      rewrite (same_full (St:=St) E n A g s i c ins rem w). auto.
  - intros o. change (fun d => lift_gram (E d)) with (lift_env (St:=St) E). rewrite <- HX. split.
    + intros (n & x & H & Hx). rewrite urun_plain in H. rewrite (same_fast (St:=St) E n A g s i c w) in H.
      cbn [fst snd] in H. injection H as <- <-. split; [|reflexivity].
      apply (diag_sound E s default_get_loc default_locof _ (default_cohere s) (fun x => x) G2 n A g i c o G1 Hi Hc).
      destruct (fast E n g s i c) as [[o1|e1]|e|], o; cbn in *; try discriminate; injection Hx; intros; subst; reflexivity.
    + intros [H ->].
      destruct (diag_complete E s default_get_loc default_locof _ (default_cohere s) (fun x => x)
        G2 A g m i o H G1 Hi c Hc eq_refl) as [n Hn].
      exists n, (omap sres_res (fast E n g s i c)).
      rewrite urun_plain, (same_fast (St:=St) E n A g s i c w). cbn [fst snd]. split; [reflexivity|].
      destruct (fast E n g s i c) as [[o1|e1]|e|]; cbn in *; try discriminate; injection Hn as <-; reflexivity.
Qed.
Print Assumptions C82_pure_callbacks.

(** ** Concrete cases.  Two alternatives that note the tokens they test: without recovery
    each sees the first token once; with it, once in each first run and, in the second
    runs, the tokens up to the one that its repair accepts *)
Theorem C82_case :
  let g := XAlt (st_note (ex_ch "a")) (st_note (ex_ch "b")) in
  ewf_env (st_E (list char)) /\ ewf g /\ ewf st_items /\
  eff (st_E (list char)) (ex_str "xa") default_locof _ g 0 0 Plain [] (RFail false (default_locof 0) []) (ex_str "xx") /\
  (exists rs, eff (st_E (list char)) (ex_str "xa") default_locof _ g 0 0 (Rec 5 (Some 5%Z)) []
     (ROffer (Some 1) false (default_locof 0) [] rs) (ex_str "xxxaxa") /\ map f_val rs = [ex_ch "a"]) /\
  (exists o, eff (st_E (list char)) (ex_str "!a!bca") default_locof _ st_items 0 0 (Rec 5 (Some 5%Z)) [] o (ex_str "ab") /\
     verdict default_fmt_loc true o (Returns (ex_str "ab"))).
Proof.
  intros g.
  assert (HE : ewf_env (st_E (list char))) by (intros d; split; exact I).
  assert (Hg : ewf g) by (unfold ewf; simpl; tauto).
  assert (Hi : ewf st_items) by (unfold ewf; simpl; tauto).
  assert (Hl : forall B (g : st_gram (list char) B) s, slay_ok (st_E (list char)) g s default_locof)
    by (intros; left; apply default_exact).
  assert (Hc : pos_Cok (T:=char) default_get_loc default_locof 0 (init_ctx default_get_loc)) by apply pos_init.
  split; [exact HE|]. split; [exact Hg|]. split; [exact Hi|]. split; [|split].
  - apply (eff_iff (st_E (list char)) _ g (ex_str "xa") _ _ HE Hg (default_cohere _) (Hl _ _ _) 0 _ Plain [] _ _ (Nat.le_0_l _) Hc).
    exists 30. eexists. split; vm_compute; reflexivity.
  - eexists. split.
    + apply (eff_iff (st_E (list char)) _ g (ex_str "xa") _ _ HE Hg (default_cohere _) (Hl _ _ _) 0 _ (Rec 5 (Some 5%Z)) []
        _ _ (Nat.le_0_l _) Hc).
      exists 30. eexists. split; vm_compute; reflexivity.
    + vm_compute. reflexivity.
  - apply (C82_effects_with_recovery _ _ _ _ _ st_items (ex_str "!a!bca") true 5 default_get_loc default_fmt_loc
      default_locof [] (ex_str "ab") HE Hi (default_cohere _) (Hl _ _ _)).
    exists 30. eexists. split; vm_compute; reflexivity.
Qed.

(** an alternative whose callback accepts in the second run only: its success is thrown
    away, and the parse reports the failure of the first runs *)
Definition st_second : st_gram bool char :=
  XAlt (XSatisfy (fun _ w => (true, Ret w))) (XUnexpected "nothing").
Theorem C82_second_success_is_lost :
  ewf st_second /\
  (forall i, i < 1 -> exists v w', eff (st_E bool) (ex_str "x") default_locof _
      (XSatisfy (fun _ w => (true, Ret w))) 0 i (Rec 5 (Some 5%Z)) true (RSucc v 1 []) w') /\
  eff (st_E bool) (ex_str "x") default_locof _ st_second 0 0 (Rec 5 (Some 5%Z)) false
    (RFail false (default_locof 0) ["nothing"%string]) true /\
  exists r, st_parse st_second "x" true false = (true, Ret r) /\
    unwrap r true = Raises [a_failure default_fmt_loc (default_locof 0) ["nothing"%string]].
Proof.
  assert (HE : ewf_env (st_E bool)) by (intros d; split; exact I).
  assert (Hg : ewf st_second) by (unfold ewf; simpl; tauto).
  assert (Hl : slay_ok (st_E bool) st_second (ex_str "x") default_locof) by (left; apply default_exact).
  assert (Hc : pos_Cok (T:=char) default_get_loc default_locof 0 (init_ctx default_get_loc)) by apply pos_init.
  split; [exact Hg|]. split; [|split].
  - intros i Hi. assert (i = 0) as -> by lia. do 2 eexists. apply (ef_sat _ _ _ _ (ex_ch "x")); reflexivity.
  - apply (eff_iff (st_E bool) _ st_second (ex_str "x") _ _ HE Hg (default_cohere _) Hl 0 _ (Rec 5 (Some 5%Z)) false
      _ _ (Nat.le_0_l _) Hc).
    exists 30. eexists. split; vm_compute; reflexivity.
  - eexists. split; vm_compute; reflexivity.
Qed.
