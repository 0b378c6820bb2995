(** Both interpreters with stateful callbacks compute exactly the rules of
    [EffectSpec.v]: completeness. *)
From Verif Require Export Effect.

Section Complete.
Context {St T : Type} {V : nat -> Type}.
Variable E : senv St T V.
Variable s : list T.
Variable get : loc -> list T -> nat -> loc.
Variable locof : nat -> loc.
Variable lay : Prop.
Hypothesis Hco : cohere get s locof.
Hypothesis Hlay : lay -> exactpos s locof.
Notation sgok := (egok lay).
Hypothesis HE : forall d, sgok (E d).
Let CS := pos_system s get locof lay Hco Hlay.
Let Cok := pos_Cok (T:=T) get locof.
Let len := List.length s.
Notation eff := (eff E s locof).
Notation econts := (econts E s locof).
Notation rpost := (rpost s get locof).
Notation grep := (grep s get locof).

Definition ureach {A} (g : sgram St T V A) md pos c w o w' : Prop :=
  exists n x, urun E n md g s pos c w = (w', x) /\ rabs x = Some o.

Lemma urun_good n A (g : sgram St T V A) md pos c w w' x : sgok g -> pos <= len -> Cok pos c ->
  urun E n md g s pos c w = (w', x) -> rpost md pos c x.
Proof.
  intros Hg Hp Hc H. destruct (eff_sound E s get locof lay Hco Hlay HE n A g md pos c w Hg Hp Hc) as [G _].
  rewrite H in G. exact G.
Qed.
Lemma ureach_any A (g : sgram St T V A) md pos c w o w' : sgok g -> pos <= len -> Cok pos c ->
  ureach g md pos c w o w' ->
  exists n x, (forall m, n <= m -> urun E m md g s pos c w = (w', x)) /\ rabs x = Some o /\ rpost md pos c x.
Proof.
  intros Hg Hp Hc (n & x & H & Hx). exists n, x. split; [|split; [auto|eapply urun_good; eauto]].
  intros m Hm. eapply urun_mono; eauto. intros K. subst x. discriminate.
Qed.
Lemma ureach_succ A (g : sgram St T V A) md pos c w v j X w' : sgok g -> pos <= len -> Cok pos c ->
  ureach g md pos c w (RSucc v j X) w' ->
  exists n o, (forall m, n <= m -> urun E m md g s pos c w = (w', Ret (ROk o))) /\
    ok_val o = v /\ ok_pos o = j /\ ok_exp o = X /\ pos <= j <= len /\ ok_con o = Nat.ltb pos j /\
    Cok j (ok_ctx o) /\ ctx_mark (ok_ctx o) = ctx_mark c.
Proof.
  intros Hg Hp Hc H. apply ureach_any in H as (n & x & H & Hx & G); auto.
  apply rabs_succ in Hx as (o & -> & H1 & H2 & H3). destruct G as (G1 & G2 & G3 & G4).
  subst j v. exists n, o. auto 10.
Qed.
Lemma ureach_fail A (g : sgram St T V A) md pos c w b l X w' : ureach g md pos c w (RFail b l X) w' ->
  exists n, forall m, n <= m -> urun E m md g s pos c w = (w', Ret (RErr (Err l X b))).
Proof.
  intros (n & x & H & Hx). apply rabs_fail in Hx. subst x. exists n. intros m Hm. eapply urun_mono; eauto. discriminate.
Qed.
Lemma ureach_exn A (g : sgram St T V A) md pos c w e w' : ureach g md pos c w (RExn e) w' ->
  exists n, forall m, n <= m -> urun E m md g s pos c w = (w', Raise e).
Proof.
  intros (n & x & H & Hx). apply rabs_exn in Hx. subst x. exists n. intros m Hm. eapply urun_mono; eauto. discriminate.
Qed.
Lemma ureach_offer A (g : sgram St T V A) md pos c w n0 b l X rs w' : sgok g -> pos <= len -> Cok pos c ->
  ureach g md pos c w (ROffer n0 b l X rs) w' ->
  exists n reps, (forall m, n <= m -> urun E m md g s pos c w = (w', Ret (RRec (Recd reps n0 l X b)))) /\
    map off reps = rs /\ Forall (grep pos (ctx_mark c)) reps.
Proof.
  intros Hg Hp Hc H. apply ureach_any in H as (n & x & H & Hx & G); auto.
  apply rabs_offer in Hx as (reps & -> & ->). destruct G as (_ & _ & G). exists n, reps. auto.
Qed.

Lemma slef_many_u {A} (p p' : nat -> ctx T -> st St (res T A)) ins n m :
  (forall pos c, slef (p pos c) (p' pos c)) -> n <= m ->
  forall con v pos c, slef (many_u p ins n con v pos c) (many_u p' ins m con v pos c).
Proof.
  intros H. revert m. induction n as [|n IH]; intros [|m] Hm con v pos c; cbn [many_u]; try apply slef_nofuel; [lia|].
  apply slef_bind; [apply H|intros r]. destruct r as [o|e|rc].
  - destruct (ok_con o); [apply IH; lia|apply slef_refl].
  - apply slef_refl.
  - apply slef_continue. intros; apply IH; lia.
Qed.

Definition CP A (g : sgram St T V A) m i md w (o : rres A) w' : Prop :=
  sgok g -> i <= len -> forall c, Cok i c -> ctx_mark c = m -> ureach g md i c w o w'.
Definition slefs {X} (m m' : st St X) : Prop :=
  forall w w' x, m w = (w', x) -> x <> NoFuel -> m' w = (w', x).
Lemma slef_slefs {X} (m m' : st St X) : slef m m' -> slefs m m'.
Proof. intros H w w' x Hm Hx. destruct (H w) as [K|K]; rewrite Hm in K; [cbn in K; congruence|auto]. Qed.
Definition CC A B C (k : A -> St -> St * out (sgram St T V B)) (merge : A -> B -> C) m ins rs w
    (x : list (offer C) + exn) w' : Prop :=
  (forall v w, match k v w with (_, Ret q) => sgok q | _ => True end) ->
  forall pos reps, map off reps = rs -> Forall (grep pos m) reps ->
  exists n, forall N F, n <= N ->
    (forall v p c r, slefs (q <! k v ;; urun E N (Rec ins (Some r)) q s p c) (F v p c r)) ->
    match x with
    | inl rs' => exists reps', sflat_map (cont_one_st ins F merge) reps w = (w', Ret reps') /\ map off reps' = rs'
    | inr e => sflat_map (cont_one_st ins F merge) reps w = (w', Raise e)
    end.

Scheme eff_mut := Minimality for EffectSpec.eff Sort Prop
  with econts_mut := Minimality for EffectSpec.econts Sort Prop.

Lemma prim_run A (g : gram T V A) n md pos c w : calls_nothing g ->
  urun E (S n) md (lift_gram g) s pos c w =
  (w, match md with
      | Plain => omap sres_res (fast nothing (S n) g s pos c)
      | Rec ins rem => full nothing (S n) g s pos c ins rem
      end).
Proof.
  intros H. destruct g; cbn in H; try contradiction; destruct md; try reflexivity;
    cbn; unfold sbind, slift; cbn; try reflexivity.
  - destruct (eof_fast s pos c); reflexivity.
  - destruct (sym_fast teq x l s pos c); reflexivity.
  - destruct (literal_fast teq x l s pos c); reflexivity.
  - destruct (regexp_fast m s pos c); reflexivity.
Qed.
Lemma prim_gok A (g : gram T V A) : calls_nothing g -> sgok (lift_gram (St:=St) g) -> gok lay g.
Proof. intros H. destruct g; cbn in H; try contradiction; intros K; exact K. Qed.
Lemma nothing_gok d : gok lay (nothing (T:=T) (V:=V) d).
Proof. cbn. tauto. Qed.

Lemma seek_complete (test : T -> st St bool) j w x w' : seek test s j w x w' ->
  forall k, j + k = len \/ (len <= j /\ k = 0) ->
  skip_loop_st (St:=St) (probe_tok_st test s) k j w = match x with inl y => (w', Ret y) | inr e => (w', Raise e) end.
Proof.
  induction 1 as [j w Hj|j t w w' Hn Ht|j t w w1 x w' Hn Ht H IH|j t e w w' Hn Ht]; intros k Hk.
  - assert (k = 0) as -> by (unfold len in *; lia). reflexivity.
  - assert (j < len) by (apply nth_error_Some; congruence). destruct k as [|k]; [lia|].
    cbn. unfold sbind, probe_tok_st. rewrite Hn. unfold sbind. rewrite Ht. reflexivity.
  - assert (j < len) by (apply nth_error_Some; congruence). destruct k as [|k]; [lia|].
    cbn. unfold sbind, probe_tok_st at 1. rewrite Hn. unfold sbind. rewrite Ht. cbn. apply IH. lia.
  - assert (j < len) by (apply nth_error_Some; congruence). destruct k as [|k]; [lia|].
    cbn. unfold sbind, probe_tok_st. rewrite Hn. unfold sbind. rewrite Ht. reflexivity.
Qed.

Lemma sat_run n (test : T -> st St bool) md pos c w :
  urun E (S n) md (XSatisfy test) s pos c w = satisfy_sr test s pos c (in_row md) (allowance md) w.
Proof.
  destruct md as [|ins rem]; [|reflexivity]. cbn. unfold satisfy_sf, satisfy_sr, sbind.
  destruct (probe_tok_st test s pos w) as [w1 [[t|]|e|]]; reflexivity.
Qed.
Lemma rejected_probe (test : T -> st St bool) pos w w1 : rejected test s pos w w1 ->
  probe_tok_st test s pos w = (w1, Ret None).
Proof.
  unfold rejected, probe_tok_st, sbind. destruct (nth_error s pos); [|intros ->; reflexivity]. intros ->. reflexivity.
Qed.
Lemma ureach_1 A (g : sgram St T V A) md pos c w o w' n x :
  urun E n md g s pos c w = (w', x) -> rabs x = Some o -> ureach g md pos c w o w'.
Proof. intros H1 H2. exists n, x. auto. Qed.
Lemma continue_run {A B C} (rc : recr T A) ins (F : A -> nat -> ctx T -> Z -> st St (res T B))
    (merge : A -> B -> C) w :
  continue_st rc ins F merge w =
  match sflat_map (cont_one_st ins F merge) (rc_reps rc) w with
  | (w1, Ret reps) => (w1, Ret (RRec (Recd reps (rc_min rc) (rc_loc rc) (rc_exp rc) (rc_con rc))))
  | (w1, Raise e) => (w1, Raise e)
  | (w1, NoFuel) => (w1, NoFuel)
  end.
Proof.
  unfold continue_st, sbind. destruct (sflat_map _ _ w) as [w1 [x|e|]]; reflexivity.
Qed.

Lemma slefs_refl {X} (m : st St X) : slefs m m.
Proof. intros w w' x H _. exact H. Qed.
(** one repair *)
Lemma cont_one_run {A B C} ins (k : A -> St -> St * out (sgram St T V B)) (merge : A -> B -> C) N F
    (r : repair T A) w w1 q w2 x :
  (forall v p c r, slefs (q <! k v ;; urun E N (Rec ins (Some r)) q s p c) (F v p c r)) ->
  k (r_val r) w = (w1, Ret q) -> urun E N (Rec ins (Some (r_ins r))) q s (r_pos r) (r_ctx r) w1 = (w2, x) ->
  x <> NoFuel -> F (r_val r) (r_pos r) (r_ctx r) (r_ins r) w = (w2, x).
Proof. intros HF Hk Hu Hx. apply HF; auto. unfold sbind. rewrite Hk. exact Hu. Qed.

Theorem eff_complete A (g : sgram St T V A) m i md w o w' :
  eff A g m i md w o w' -> CP A g m i md w o w'.
Proof.
  intros HH. induction HH using eff_mut with (P0 := CC).
  all: match goal with
    | |- CP _ _ _ _ _ _ _ _ => intros Hg Hi c Hc Hm; pose proof Hg as Hg0; simpl in Hg0;
        pose proof (Cloc s get locof lay Hco Hlay _ c Hc Hi) as HL0; unfold CP in *
    | |- CC _ _ _ _ _ _ _ _ _ _ _ => intros Hk pos reps Hreps HG
    end.
  - (* primitives *)
    pose proof (prim_gok _ _ H Hg) as HG.
    destruct (rec_complete nothing s get locof lay Hco Hlay nothing_gok _ _ _ _ _ _ _ H0 HG Hi c Hc Hm) as [[|n] Hn];
      [discriminate|].
    eapply ureach_1 with (n := S n); [apply prim_run; exact H|exact Hn].
  - pose proof (prim_gok _ _ H Hg) as HG.
    destruct (diag_complete nothing s get locof lay Hco Hlay nothing_gok _ _ _ _ _ H0 HG Hi c Hc Hm) as [[|n] Hn];
      [discriminate|].
    eapply ureach_1 with (n := S n); [apply prim_run; exact H|].
    destruct (fast nothing (S n) g s i c) as [[o1|e1]|e|]; cbn in Hn |- *; try discriminate; injection Hn as <-; reflexivity.
  - (* pure_fn *)
    exists 1. destruct md; eexists; cbn; unfold purefn_sf, purefn_sr, sbind; rewrite H; split; reflexivity.
  - exists 1. destruct md; eexists; cbn; unfold purefn_sf, purefn_sr, sbind; rewrite H; split; reflexivity.
  - (* satisfy *) exists 1. eexists. rewrite sat_run. unfold satisfy_sr, probe_tok_st at 1, sbind. rewrite H.
    unfold sbind. rewrite H0. split; reflexivity.
  - exists 1. eexists. rewrite sat_run. unfold satisfy_sr, probe_tok_st at 1, sbind. rewrite H.
    unfold sbind. rewrite H0. split; reflexivity.
  - exists 1. eexists. rewrite sat_run. unfold satisfy_sr, sbind. rewrite (rejected_probe _ _ _ _ H), H0.
    rewrite HL0. split; reflexivity.
  - exists 1. eexists. rewrite sat_run. unfold satisfy_sr, sbind. rewrite (rejected_probe _ _ _ _ H). cbn [allowance in_row].
    unfold sbind. rewrite (seek_complete _ _ _ _ _ H0) by (fold len; lia). rewrite HL0. split; reflexivity.
  - exists 1. eexists. rewrite sat_run. unfold satisfy_sr, sbind. rewrite (rejected_probe _ _ _ _ H). cbn [allowance in_row].
    unfold sbind. rewrite (seek_complete _ _ _ _ _ H0) by (fold len; lia). rewrite HL0. split; reflexivity.
  - exists 1. eexists. rewrite sat_run. unfold satisfy_sr, sbind. rewrite (rejected_probe _ _ _ _ H). cbn [allowance in_row].
    unfold sbind. rewrite (seek_complete _ _ _ _ _ H0) by (fold len; lia). split; reflexivity.
  - (* fmap *) destruct (ureach_succ _ _ _ _ _ _ _ _ _ _ (proj2 Hg0) Hi Hc (IHHH (proj2 Hg0) Hi c Hc Hm))
      as (n & o & Hn & Hv & Hj & HX & _).
    eapply ureach_1 with (n := S n); [rewrite urun_fmap; unfold sbind; rewrite Hn by auto; cbn; unfold ok_fmap_st, sbind;
      rewrite Hv, H; reflexivity|]. cbn. congruence.
  - destruct (ureach_succ _ _ _ _ _ _ _ _ _ _ (proj2 Hg0) Hi Hc (IHHH (proj2 Hg0) Hi c Hc Hm))
      as (n & o & Hn & Hv & Hj & HX & _).
    eapply ureach_1 with (n := S n); [rewrite urun_fmap; unfold sbind; rewrite Hn by auto; cbn; unfold ok_fmap_st, sbind;
      rewrite Hv, H; reflexivity|]. reflexivity.
  - destruct (ureach_fail _ _ _ _ _ _ _ _ _ _ (IHHH (proj2 Hg0) Hi c Hc Hm)) as (n & Hn).
    eapply ureach_1 with (n := S n); [rewrite urun_fmap; unfold sbind; rewrite Hn by auto; reflexivity|reflexivity].
  - destruct (ureach_offer _ _ _ _ _ _ _ _ _ _ _ _ (proj2 Hg0) Hi Hc (IHHH (proj2 Hg0) Hi c Hc Hm))
      as (n1 & reps & Hn & Hr & _).
    destruct (f_calls_off s get locof f reps w1) as [K _]. rewrite Hr, H in K.
    destruct (smap (rep_fmap_st f) reps w1) as [w3 [l0|e|]] eqn:HS; try discriminate. injection K as -> <-.
    eapply ureach_1 with (n := S n1); [rewrite urun_fmap; unfold sbind; rewrite Hn by auto; cbn;
      unfold rec_fmap_st, sbind; cbn; rewrite HS; reflexivity|reflexivity].
  - destruct (ureach_offer _ _ _ _ _ _ _ _ _ _ _ _ (proj2 Hg0) Hi Hc (IHHH (proj2 Hg0) Hi c Hc Hm))
      as (n1 & reps & Hn & Hr & _).
    destruct (f_calls_off s get locof f reps w1) as [K _]. rewrite Hr, H in K.
    destruct (smap (rep_fmap_st f) reps w1) as [w3 [l0|e0|]] eqn:HS; try discriminate. injection K as -> <-.
    eapply ureach_1 with (n := S n1); [rewrite urun_fmap; unfold sbind; rewrite Hn by auto; cbn;
      unfold rec_fmap_st, sbind; cbn; rewrite HS; reflexivity|reflexivity].
  - destruct (ureach_exn _ _ _ _ _ _ _ _ (IHHH (proj2 Hg0) Hi c Hc Hm)) as (n & Hn).
    eapply ureach_1 with (n := S n); [rewrite urun_fmap; unfold sbind; rewrite Hn by auto; reflexivity|reflexivity].
  - (* alt *)
    destruct Hg0 as (_ & Hg1 & Hg2).
    destruct (ureach_any _ _ _ _ _ _ _ _ Hg1 Hi Hc (IHHH Hg1 Hi c Hc Hm)) as (n & x & Hn & Hx & _).
    eapply ureach_1 with (n := S n) (x := x); [|exact Hx]. rewrite urun_alt. unfold sbind. rewrite Hn by auto.
    destruct x as [[o1|[la xa ca]|[ra mn la xa ca]]|e|]; cbn in Hx |- *; try discriminate; injection Hx as <-;
      try reflexivity; cbn in H; subst ca; reflexivity.
  - destruct Hg0 as (_ & Hg1 & Hg2).
    destruct (ureach_fail _ _ _ _ _ _ _ _ _ _ (IHHH1 Hg1 Hi c Hc Hm)) as (n1 & Hn1).
    destruct (ureach_any _ _ _ _ _ _ _ _ Hg2 Hi Hc (IHHH2 Hg2 Hi c Hc Hm)) as (n2 & x & Hn2 & Hx & G).
    exists (S (n1 + n2)). rewrite urun_alt. unfold sbind. rewrite Hn1 by lia. unfold alt_rest, sbind. rewrite Hn2 by lia.
    destruct x as [[o2|[lb xb cb]|[rb mn lb xb cb]]|e|]; cbn in Hx; try discriminate; injection Hx as <-;
      cbn -[Nat.ltb] in H |- *.
    + destruct G as (_ & OC & _). rewrite <- OC.
      destruct (ok_con o2) eqn:K; eexists; (split; [reflexivity|]); cbn; unfold ok_set_exp; rewrite ?K; reflexivity.
    + subst cb. eexists. split; reflexivity.
    + subst cb. eexists. split; reflexivity.
    + eexists. split; reflexivity.
  - destruct Hg0 as (_ & Hg1 & Hg2).
    destruct (ureach_fail _ _ _ _ _ _ _ _ _ _ (IHHH1 Hg1 Hi c Hc Hm)) as (n1 & Hn1).
    destruct (ureach_fail _ _ _ _ _ _ _ _ _ _ (IHHH2 Hg2 Hi c Hc Hm)) as (n2 & Hn2).
    exists (S (n1 + n2)). eexists. rewrite urun_alt. unfold sbind. rewrite Hn1 by lia. unfold alt_rest, sbind. rewrite Hn2 by lia.
    cbn. rewrite H. split; reflexivity.
  - destruct Hg0 as (_ & Hg1 & Hg2).
    destruct (ureach_fail _ _ _ _ _ _ _ _ _ _ (IHHH1 Hg1 Hi c Hc Hm)) as (n1 & Hn1).
    destruct (ureach_fail _ _ _ _ _ _ _ _ _ _ (IHHH2 Hg2 Hi c Hc Hm)) as (n2 & Hn2).
    destruct (ureach_any _ _ _ _ _ _ _ _ Hg1 Hi Hc (IHHH3 Hg1 Hi c Hc Hm)) as (n3 & x & Hn3 & Hx & _).
    destruct (ureach_any _ _ _ _ _ _ _ _ Hg2 Hi Hc (IHHH4 Hg2 Hi c Hc Hm)) as (n4 & y & Hn4 & Hy & _).
    exists (S (n1 + n2 + n3 + n4)). rewrite urun_alt. unfold sbind. cbn [hush]. rewrite Hn1 by lia.
    unfold alt_rest, sbind. cbn [hush]. rewrite Hn2 by lia. cbn [res_con er_con res_exp er_exp allowance].
    unfold sbind. rewrite Hn3, Hn4 by lia. unfold Append.
    destruct x as [r1|e1|]; cbn [rabs] in Hx; try discriminate; injection Hx as <-.
    2:{ contradiction. }
    destruct y as [r2|e2|]; cbn [rabs] in Hy; try discriminate; injection Hy as <-.
    2:{ eexists. split; [reflexivity|]. destruct r1; reflexivity. }
    destruct r1 as [?|?|c1], r2 as [?|?|c2]; eexists; (split; [reflexivity|]); cbn [rabs];
      try (rewrite (rab_join l); reflexivity);
      try (rewrite rab_relabelled; reflexivity);
      reflexivity.
  - destruct Hg0 as (_ & Hg1 & Hg2).
    destruct (ureach_fail _ _ _ _ _ _ _ _ _ _ (IHHH1 Hg1 Hi c Hc Hm)) as (n1 & Hn1).
    destruct (ureach_fail _ _ _ _ _ _ _ _ _ _ (IHHH2 Hg2 Hi c Hc Hm)) as (n2 & Hn2).
    destruct (ureach_exn _ _ _ _ _ _ _ _ (IHHH3 Hg1 Hi c Hc Hm)) as (n3 & Hn3).
    exists (S (n1 + n2 + n3)). eexists. rewrite urun_alt. unfold sbind. cbn [hush]. rewrite Hn1 by lia.
    unfold alt_rest, sbind. cbn [hush]. rewrite Hn2 by lia. cbn [res_con er_con res_exp er_exp allowance].
    unfold sbind. rewrite Hn3 by lia. split; reflexivity.
  - (* bind *) destruct Hg0 as (_ & Hg1 & Hg2).
    destruct (ureach_succ _ _ _ _ _ _ _ _ _ _ Hg1 Hi Hc (IHHH1 Hg1 Hi c Hc Hm))
      as (n & o1 & Hn & Hv & Hj & HX & Hb & Hcon & Hc' & Hm').
    pose proof (Hg2 v w1) as Hq. rewrite H in Hq.
    destruct (ureach_any _ _ _ _ _ _ _ _ Hq (proj2 Hb) Hc' (IHHH2 Hq (proj2 Hb) (ok_ctx o1) Hc' ltac:(congruence)))
      as (n2 & x & Hn2 & Hx & G).
    exists (S (n + n2)). rewrite urun_bind. unfold sbind at 1. rewrite Hn by lia. rewrite Hv, Hj.
    unfold sbind. rewrite H. rewrite (renewb_renew md i j) by exact Hcon. rewrite Hn2 by lia.
    destruct x as [r|e2|]; [|cbn in Hx; injection Hx as <-; eexists; split; reflexivity|discriminate].
    eexists. split; [reflexivity|]. pose proof (rpost_okcon _ _ _ _ _ _ _ G) as OC.
    cbn [rabs] in *. rewrite (rab_prepend i j) by auto. injection Hx as <-. rewrite HX. reflexivity.
  - destruct Hg0 as (_ & Hg1 & Hg2).
    destruct (ureach_succ _ _ _ _ _ _ _ _ _ _ Hg1 Hi Hc (IHHH Hg1 Hi c Hc Hm))
      as (n & o1 & Hn & Hv & Hj & HX & _).
    exists (S n). eexists. rewrite urun_bind. unfold sbind at 1. rewrite Hn by lia. rewrite Hv.
    unfold sbind. rewrite H. split; reflexivity.
  - destruct (ureach_fail _ _ _ _ _ _ _ _ _ _ (IHHH (proj1 (proj2 Hg0)) Hi c Hc Hm)) as (n & Hn).
    exists (S n). eexists. rewrite urun_bind. unfold sbind at 1. rewrite Hn by auto. split; reflexivity.
  - destruct Hg0 as (_ & Hg1 & Hg2).
    destruct (ureach_offer _ _ _ _ _ _ _ _ _ _ _ _ Hg1 Hi Hc (IHHH Hg1 Hi c Hc Hm)) as (n1 & reps & Hn & Hr & HG).
    rewrite Hm in HG. destruct (IHHH0 Hg2 i reps Hr HG) as (n2 & Hn2).
    destruct (Hn2 (n1 + n2) (fun v p c r => g <! f v ;; urun E (n1 + n2) (Rec ins (Some r)) g s p c) ltac:(lia))
      as (reps' & HS & HO); [intros; apply slefs_refl|].
    exists (S (n1 + n2)). eexists. rewrite urun_bind. unfold sbind at 1. rewrite Hn by lia. cbn [in_row].
    rewrite continue_run. cbn [rc_reps]. rewrite HS. split; [reflexivity|]. cbn. rewrite HO. reflexivity.
  - destruct Hg0 as (_ & Hg1 & Hg2).
    destruct (ureach_offer _ _ _ _ _ _ _ _ _ _ _ _ Hg1 Hi Hc (IHHH Hg1 Hi c Hc Hm)) as (n1 & reps & Hn & Hr & HG).
    rewrite Hm in HG. destruct (IHHH0 Hg2 i reps Hr HG) as (n2 & Hn2).
    pose proof (Hn2 (n1 + n2) (fun v p c r => g <! f v ;; urun E (n1 + n2) (Rec ins (Some r)) g s p c) ltac:(lia)
      (fun _ _ _ _ => slefs_refl _)) as HS.
    exists (S (n1 + n2)). eexists. rewrite urun_bind. unfold sbind at 1. rewrite Hn by lia. cbn [in_row].
    rewrite continue_run. cbn [rc_reps]. rewrite HS. split; reflexivity.
  - destruct (ureach_exn _ _ _ _ _ _ _ _ (IHHH (proj1 (proj2 Hg0)) Hi c Hc Hm)) as (n & Hn).
    exists (S n). eexists. rewrite urun_bind. unfold sbind at 1. rewrite Hn by auto. split; reflexivity.
  - (* seq *) destruct Hg0 as (_ & Hg1 & Hg2).
    destruct (ureach_succ _ _ _ _ _ _ _ _ _ _ Hg1 Hi Hc (IHHH1 Hg1 Hi c Hc Hm))
      as (n & o1 & Hn & Hv & Hj & HX & Hb & Hcon & Hc' & Hm').
    destruct (ureach_any _ _ _ _ _ _ _ _ Hg2 (proj2 Hb) Hc' (IHHH2 Hg2 (proj2 Hb) (ok_ctx o1) Hc' ltac:(congruence)))
      as (n2 & x & Hn2 & Hx & G).
    exists (S (n + n2)). rewrite urun_seq. unfold sbind at 1. rewrite Hn by lia. rewrite Hv, Hj.
    unfold sbind. rewrite (renewb_renew md i j) by exact Hcon. rewrite Hn2 by lia.
    destruct x as [r|e2|]; [|cbn in Hx; injection Hx as <-; eexists; split; reflexivity|discriminate].
    pose proof (rpost_okcon _ _ _ _ _ _ _ G) as OC.
    destruct (rab_fmap_pure (merge v) r) as (r' & Hr' & Hab). eexists. unfold slift. rewrite Hr'. cbn [obind].
    split; [reflexivity|]. cbn [rabs] in *.
    rewrite (rab_prepend i j) by (auto; eapply rokcon_fmap; eauto). rewrite Hab, HX. injection Hx as <-.
    destruct r; cbn; try reflexivity; rewrite !map_map; reflexivity.
  - destruct (ureach_fail _ _ _ _ _ _ _ _ _ _ (IHHH (proj1 (proj2 Hg0)) Hi c Hc Hm)) as (n & Hn).
    exists (S n). eexists. rewrite urun_seq. unfold sbind at 1. rewrite Hn by auto. split; reflexivity.
  - destruct Hg0 as (_ & Hg1 & Hg2).
    destruct (ureach_offer _ _ _ _ _ _ _ _ _ _ _ _ Hg1 Hi Hc (IHHH Hg1 Hi c Hc Hm)) as (n1 & reps & Hn & Hr & HG).
    rewrite Hm in HG. destruct (IHHH0 (fun _ _ => Hg2) i reps Hr HG) as (n2 & Hn2).
    destruct (Hn2 (n1 + n2) (fun v p c r => urun E (n1 + n2) (Rec ins (Some r)) q s p c) ltac:(lia))
      as (reps' & HS & HO); [intros; apply slefs_refl|].
    exists (S (n1 + n2)). eexists. rewrite urun_seq. unfold sbind at 1. rewrite Hn by lia. cbn [in_row].
    rewrite continue_run. cbn [rc_reps]. rewrite HS. split; [reflexivity|]. cbn. rewrite HO. reflexivity.
  - destruct Hg0 as (_ & Hg1 & Hg2).
    destruct (ureach_offer _ _ _ _ _ _ _ _ _ _ _ _ Hg1 Hi Hc (IHHH Hg1 Hi c Hc Hm)) as (n1 & reps & Hn & Hr & HG).
    rewrite Hm in HG. destruct (IHHH0 (fun _ _ => Hg2) i reps Hr HG) as (n2 & Hn2).
    pose proof (Hn2 (n1 + n2) (fun v p c r => urun E (n1 + n2) (Rec ins (Some r)) q s p c) ltac:(lia)
      (fun _ _ _ _ => slefs_refl _)) as HS.
    exists (S (n1 + n2)). eexists. rewrite urun_seq. unfold sbind at 1. rewrite Hn by lia. cbn [in_row].
    rewrite continue_run. cbn [rc_reps]. rewrite HS. split; reflexivity.
  - destruct (ureach_exn _ _ _ _ _ _ _ _ (IHHH (proj1 (proj2 Hg0)) Hi c Hc Hm)) as (n & Hn).
    exists (S n). eexists. rewrite urun_seq. unfold sbind at 1. rewrite Hn by auto. split; reflexivity.
  - (* maybe *) destruct Hg0 as [_ Hg1].
    destruct (ureach_any _ _ _ _ _ _ _ _ Hg1 Hi Hc (IHHH Hg1 Hi c Hc Hm)) as (n & x & Hn & Hx & _).
    exists (S n). rewrite urun_maybe. unfold sbind. rewrite Hn by auto.
    destruct x as [r|e|]; [|cbn in Hx; injection Hx as <-; eexists; split; reflexivity|discriminate].
    cbn [rabs] in Hx. injection Hx as <-.
    destruct (rab_fmap_pure Some r) as (r' & Hr' & Hab). exists (Ret r'). rewrite <- Hab. split; [|reflexivity].
    unfold slift. destruct r as [o1|e1|c1]; cbn in H |- *; rewrite ?H; rewrite <- Hr'; reflexivity.
  - destruct (ureach_fail _ _ _ _ _ _ _ _ _ _ (IHHH (proj2 Hg0) Hi c Hc Hm)) as (n & Hn).
    exists (S n). eexists. rewrite urun_maybe. unfold sbind. rewrite Hn by auto. split; reflexivity.
  - (* many *) destruct Hg0 as [_ Hg1].
    destruct (ureach_succ _ _ _ _ _ _ _ _ _ _ Hg1 Hi Hc (IHHH1 Hg1 Hi c Hc Hm))
      as (n & o1 & Hn & Hv & Hj & HX & Hb & Hcon & Hc' & Hm').
    destruct (ureach_any _ _ _ _ _ _ _ _ Hg (proj2 Hb) Hc' (IHHH2 Hg (proj2 Hb) (ok_ctx o1) Hc'
      ltac:(congruence))) as (n2 & x & Hn2 & Hx & _).
    pose (N := n + n2).
    assert (Hlt : Nat.ltb i j = true) by (apply Nat.ltb_lt; auto).
    assert (K : many_u (urun E (S N) (hush md) p s) (in_row md) N false [] j (ok_ctx o1) w1 = (w2, x)).
    { specialize (Hn2 (S N) ltac:(lia)). rewrite urun_many in Hn2.
      replace (hush (hush md)) with (hush md) in Hn2 by (destruct md; reflexivity).
      replace (in_row (hush md)) with (in_row md) in Hn2 by (destruct md; reflexivity).
      refine (slef_slefs _ _ (slef_many_u _ _ _ _ _ _ (le_n N) false [] j (ok_ctx o1)) _ _ _ Hn2 _).
      - intros; apply urun_lef; lia.
      - intros ->. discriminate. }
    exists (S (S N)). rewrite urun_many, many_u_S. unfold sbind. rewrite Hn by lia.
    rewrite Hcon, Hlt, Hj, Hv, many_u_acc, K. cbn [fst snd].
    destruct x as [r|e|]; cbn [rabs omap] in *; try discriminate; injection Hx as <-.
    + eexists. split; [reflexivity|]. cbn [rabs]. rewrite <- (rab_addv v r). reflexivity.
    + eexists. split; reflexivity.
  - destruct Hg0 as [_ Hg1]. destruct (ureach_succ _ _ _ _ _ _ _ _ _ _ Hg1 Hi Hc (IHHH Hg1 Hi c Hc Hm))
      as (n & o1 & Hn & Hv & Hj & HX & Hb & Hcon & _).
    exists (S (S n)). eexists. rewrite urun_many, many_u_S. unfold sbind. rewrite Hn by lia.
    rewrite Hcon, Nat.ltb_irrefl. split; reflexivity.
  - destruct (ureach_fail _ _ _ _ _ _ _ _ _ _ (IHHH (proj2 Hg0) Hi c Hc Hm)) as (n & Hn).
    exists (S (S n)). eexists. rewrite urun_many, many_u_S. unfold sbind. rewrite Hn by lia. split; reflexivity.
  - destruct (ureach_fail _ _ _ _ _ _ _ _ _ _ (IHHH (proj2 Hg0) Hi c Hc Hm)) as (n & Hn).
    exists (S (S n)). eexists. rewrite urun_many, many_u_S. unfold sbind. rewrite Hn by lia. split; reflexivity.
  - destruct Hg0 as [_ Hg1].
    destruct (ureach_offer _ _ _ _ _ _ _ _ _ _ _ _ Hg1 Hi Hc (IHHH Hg1 Hi c Hc Hm)) as (n1 & reps & Hn & Hr & HG).
    rewrite Hm in HG. destruct (IHHH0 (fun _ _ => Hg) i reps Hr HG) as (n2 & Hn2).
    pose (N := n1 + n2).
    destruct (Hn2 (S N) (fun _ p' c' _ => many_u (urun E (S N) (Rec ins None) p s) ins N false [] p' c') ltac:(lia))
      as (reps' & HS & HO).
    { intros v p' c' r w' w2' x Hu Hx. unfold sbind in Hu. rewrite urun_many in Hu. cbn [hush in_row] in Hu.
      refine (slef_slefs _ _ (slef_many_u _ _ _ _ _ _ (le_n N) false [] p' c') _ _ _ Hu Hx).
      intros; apply urun_lef; lia. }
    exists (S (S N)). eexists. rewrite urun_many, many_u_S. unfold sbind at 1. cbn [hush in_row]. rewrite Hn by lia.
    rewrite continue_run. cbn [rc_reps rc_min rc_con rc_loc rc_exp].
    rewrite (sflat_ext _ (cont_one_st ins
      (fun _ p' c' _ => many_u (urun E (S N) (Rec ins None) p s) ins N false [] p' c') cons)) by reflexivity.
    rewrite HS. split; [reflexivity|]. cbn. rewrite HO. reflexivity.
  - destruct Hg0 as [_ Hg1].
    destruct (ureach_offer _ _ _ _ _ _ _ _ _ _ _ _ Hg1 Hi Hc (IHHH Hg1 Hi c Hc Hm)) as (n1 & reps & Hn & Hr & HG).
    rewrite Hm in HG. destruct (IHHH0 (fun _ _ => Hg) i reps Hr HG) as (n2 & Hn2).
    pose (N := n1 + n2).
    specialize (Hn2 (S N) (fun _ p' c' _ => many_u (urun E (S N) (Rec ins None) p s) ins N false [] p' c') ltac:(lia)).
    cbn beta in Hn2.
    assert (HS := Hn2 ltac:(
      intros v p' c' r w' w2' x Hu Hx; unfold sbind in Hu; rewrite urun_many in Hu; cbn [hush in_row] in Hu;
      refine (slef_slefs _ _ (slef_many_u _ _ _ _ _ _ (le_n N) false [] p' c') _ _ _ Hu Hx);
      intros; apply urun_lef; lia)).
    exists (S (S N)). eexists. rewrite urun_many, many_u_S. unfold sbind at 1. cbn [hush in_row]. rewrite Hn by lia.
    rewrite continue_run. cbn [rc_reps rc_min rc_con rc_loc rc_exp].
    rewrite (sflat_ext _ (cont_one_st ins
      (fun _ p' c' _ => many_u (urun E (S N) (Rec ins None) p s) ins N false [] p' c') cons)) by reflexivity.
    rewrite HS. split; reflexivity.
  - destruct (ureach_exn _ _ _ _ _ _ _ _ (IHHH (proj2 Hg0) Hi c Hc Hm)) as (n & Hn).
    exists (S (S n)). eexists. rewrite urun_many, many_u_S. unfold sbind. rewrite Hn by lia. split; reflexivity.
  - (* attempt *) destruct (IHHH (proj2 Hg0) Hi c Hc Hm) as (n & x & Hn & Hx). exists (S n), x.
    rewrite urun_attempt. split; auto.
  - destruct (ureach_any _ _ _ _ _ _ _ _ (proj2 Hg0) Hi Hc (IHHH (proj2 Hg0) Hi c Hc Hm)) as (n & x & Hn & Hx & G).
    exists (S n). rewrite urun_attempt, H. unfold sbind. rewrite Hn by auto.
    destruct x as [[o1|[l X b]|rc]|e|]; cbn in Hx; try discriminate; injection Hx as <-;
      try (eexists; split; reflexivity).
  - (* label *)
    destruct (ureach_any _ _ _ _ _ _ _ _ (proj2 Hg0) Hi Hc (IHHH (proj2 Hg0) Hi c Hc Hm)) as (n & y & Hn & Hy & G).
    exists (S n). rewrite urun_label. unfold sbind. rewrite Hn by auto.
    destruct y as [r|e|]; [|cbn in Hy; injection Hy as <-; eexists; split; reflexivity|discriminate].
    cbn [rabs] in *. eexists. split; [reflexivity|]. cbn [rabs].
    rewrite (rab_label i) by (exact (rpost_okcon _ _ _ _ _ _ _ G)). injection Hy as <-. reflexivity.
  - (* recover *)
    destruct (ureach_any _ _ _ _ _ _ _ _ (proj2 Hg0) Hi Hc (IHHH (proj2 Hg0) Hi c Hc Hm)) as (n & y & Hn & Hy & G).
    exists (S n). rewrite urun_recover. unfold sbind. rewrite Hn by auto.
    destruct y as [[o1|e1|c1]|e|]; cbn [rabs] in *; try discriminate; injection Hy as <-;
      eexists; (split; [reflexivity|]); try reflexivity.
    cbn [rabs]. rewrite rab_ranked. reflexivity.
  - (* recover_with *)
    destruct (IHHH (proj2 Hg0) Hi c Hc Hm) as (n & x' & Hn & Hx). exists (S n), x'. rewrite urun_with, H. auto.
  - destruct (ureach_any _ _ _ _ _ _ _ _ (proj2 Hg0) Hi Hc (IHHH (proj2 Hg0) Hi c Hc Hm)) as (n & y & Hn & Hy & G).
    exists (S n), y. rewrite urun_with. cbn [allowance]. unfold sbind. rewrite Hn by auto. split; [|exact Hy].
    destruct y as [r|e|]; [|reflexivity|discriminate].
    cbn in Hy. injection Hy as <-.
    destruct r as [o1|e1|c1]; [reflexivity|cbn in H |- *..];
      (destruct H as [H|H]; [rewrite H; cbn; rewrite ?H; reflexivity|]); subst left; cbn;
      [destruct (er_con e1) eqn:Q|destruct (rc_con c1) eqn:Q]; cbn; rewrite ?Q; reflexivity.
  - destruct (ureach_fail _ _ _ _ _ _ _ _ _ _ (IHHH (proj2 Hg0) Hi c Hc Hm)) as (n & Hn).
    exists (S n). eexists. rewrite urun_with. cbn [allowance]. unfold sbind. rewrite Hn by auto. cbn.
    destruct (Z.eqb_spec left 0); [contradiction|]. unfold sbind, slift. rewrite HL0. split; reflexivity.
  - destruct (ureach_offer _ _ _ _ _ _ _ _ _ _ _ _ (proj2 Hg0) Hi Hc (IHHH (proj2 Hg0) Hi c Hc Hm))
      as (n1 & reps & Hn & Hr & _).
    exists (S n1). eexists. rewrite urun_with. cbn [allowance]. unfold sbind. rewrite Hn by auto. cbn.
    destruct (Z.eqb_spec left 0); [contradiction|]. unfold sbind, slift. rewrite HL0. split; [reflexivity|].
    cbn. rewrite Hr. reflexivity.
  - (* recover_with_fn *)
    destruct (IHHH (proj2 Hg0) Hi c Hc Hm) as (n & x' & Hn & Hx). exists (S n), x'. rewrite urun_withfn, H. auto.
  - destruct (ureach_any _ _ _ _ _ _ _ _ (proj2 Hg0) Hi Hc (IHHH (proj2 Hg0) Hi c Hc Hm)) as (n & y & Hn & Hy & G).
    exists (S n), y. rewrite urun_withfn. cbn [allowance]. unfold sbind. rewrite Hn by auto. split; [|exact Hy].
    destruct y as [r|e|]; [|reflexivity|discriminate].
    cbn in Hy. injection Hy as <-.
    destruct r as [o1|e1|c1]; [reflexivity|cbn in H |- *..];
      (destruct H as [H|H]; [rewrite H; cbn; rewrite ?H; reflexivity|]); subst left; cbn;
      [destruct (er_con e1) eqn:Q|destruct (rc_con c1) eqn:Q]; cbn; rewrite ?Q; reflexivity.
  - destruct (ureach_fail _ _ _ _ _ _ _ _ _ _ (IHHH (proj2 Hg0) Hi c Hc Hm)) as (n & Hn).
    exists (S n). eexists. rewrite urun_withfn. cbn [allowance]. unfold sbind. rewrite Hn by auto. cbn.
    destruct (Z.eqb_spec left 0); [contradiction|]. unfold sbind, slift. rewrite H0, HL0. split; reflexivity.
  - destruct (ureach_offer _ _ _ _ _ _ _ _ _ _ _ _ (proj2 Hg0) Hi Hc (IHHH (proj2 Hg0) Hi c Hc Hm))
      as (n1 & reps & Hn & Hr & _).
    exists (S n1). eexists. rewrite urun_withfn. cbn [allowance]. unfold sbind. rewrite Hn by auto. cbn.
    destruct (Z.eqb_spec left 0); [contradiction|]. unfold sbind, slift. rewrite H0, HL0. split; [reflexivity|].
    cbn. rewrite Hr. reflexivity.
  - destruct (ureach_any _ _ _ _ _ _ _ _ (proj2 Hg0) Hi Hc (IHHH (proj2 Hg0) Hi c Hc Hm)) as (n & y & Hn & Hy & G).
    exists (S n). eexists. rewrite urun_withfn. cbn [allowance]. unfold sbind. rewrite Hn by auto.
    destruct y as [r|e0|];
      [|cbn in Hy; injection Hy as <-; exfalso; apply H; exact I|discriminate].
    cbn in Hy. injection Hy as <-.
    destruct r as [o1|e1|c1]; [exfalso; apply H; exact I|cbn in H |- *..].
    + destruct (er_con e1); [exfalso; auto|]. destruct (Z.eqb_spec left 0); [contradiction|]. unfold sbind. rewrite H1.
      split; reflexivity.
    + destruct (rc_con c1); [exfalso; auto|]. destruct (Z.eqb_spec left 0); [contradiction|]. unfold sbind. rewrite H1.
      split; reflexivity.
  - (* block *)
    destruct (cs_col _ _ _ _ _ CS i c (proj2 (sall_node s get locof _ _ _ Hg) I) Hc Hi) as [Hlo Hcl]. red in Hcl, Hlo.
    pose proof (cs_upd _ _ _ _ _ CS i i c Hc ltac:(unfold len in *; lia)) as Hcu.
    destruct (IHHH (proj2 Hg0) Hi (set_mark (update_loc c s i) (loc_col (locof i)))
      (cs_mark _ _ _ _ _ CS _ _ _ Hcu) eq_refl) as (n & x & Hn & Hx).
    exists (S n). rewrite urun_block. rewrite Hcl. unfold sbind. rewrite Hn.
    destruct x as [r|e|]; [|cbn in Hx; injection Hx as <-; eexists; split; reflexivity|discriminate].
    eexists. split; [reflexivity|]. cbn [rabs] in *. rewrite rab_set_ctx. exact Hx.
  - (* aligned *)
    destruct (cs_col _ _ _ _ _ CS i c (proj2 (sall_node s get locof _ _ _ Hg) I) Hc Hi) as [Hlo Hcl]. red in Hcl, Hlo.
    pose proof (cs_upd _ _ _ _ _ CS i i c Hc ltac:(unfold len in *; lia)) as Hcu.
    destruct (IHHH (proj2 Hg0) Hi (update_loc c s i) Hcu ltac:(rewrite upd_mark'; auto)) as (n & x & Hn & Hx).
    exists (S n), x. rewrite urun_aligned. rewrite Hcl, upd_mark'.
    rewrite Hm, H, Z.eqb_refl. auto.
  - destruct (cs_col _ _ _ _ _ CS i c (proj2 (sall_node s get locof _ _ _ Hg) I) Hc Hi) as [Hlo Hcl]. red in Hcl, Hlo.
    exists 1. eexists. rewrite urun_aligned. rewrite Hcl, upd_mark', Hlo.
    destruct (Z.eqb_spec (ctx_mark c) (loc_col (locof i))); [congruence|split; reflexivity].
  - (* indented *)
    destruct (cs_col _ _ _ _ _ CS i c (proj2 (sall_node s get locof _ _ _ Hg) I) Hc Hi) as [Hlo Hcl]. red in Hcl, Hlo.
    pose proof (cs_upd _ _ _ _ _ CS i i c Hc ltac:(unfold len in *; lia)) as Hcu.
    destruct (IHHH (proj2 Hg0) Hi (set_mark (update_loc c s i) (loc_col (locof i)))
      (cs_mark _ _ _ _ _ CS _ _ _ Hcu) eq_refl) as (n & x & Hn & Hx).
    exists (S n). rewrite urun_indented. rewrite Hcl, upd_mark'.
    rewrite Hm, <- H, Z.eqb_refl. unfold sbind. rewrite Hn.
    destruct x as [r|e|]; [|cbn in Hx; injection Hx as <-; eexists; split; reflexivity|discriminate].
    eexists. split; [reflexivity|]. cbn [rabs] in *. rewrite rab_set_ctx. exact Hx.
  - destruct (cs_col _ _ _ _ _ CS i c (proj2 (sall_node s get locof _ _ _ Hg) I) Hc Hi) as [Hlo Hcl]. red in Hcl, Hlo.
    exists 1. eexists. rewrite urun_indented. rewrite Hcl, upd_mark', Hlo.
    destruct (Z.eqb_spec (ctx_mark c + delta) (loc_col (locof i))); [congruence|split; reflexivity].
  - (* delay *) destruct (IHHH (HE d) Hi c Hc Hm) as (n & x & Hn & Hx). exists (S n), x.
    rewrite urun_delay. auto.
  - (* conts *) apply map_eq_nil in Hreps. subst reps. exists 0. intros N F _ _. exists []. split; reflexivity.
  - destruct reps as [|r0 reps]; [discriminate|]. injection Hreps as <- Hreps.
    inversion HG as [|? ? (G1 & G2 & G3) HG']; subst.
    pose proof (Hk (f_val (off r0)) w) as Hq. rewrite H in Hq.
    destruct (ureach_succ _ _ _ _ _ _ _ _ _ _ Hq (proj2 G1) G2 (IHHH Hq (proj2 G1) _ G2 eq_refl))
      as (n1 & o1 & Hn & Hv & Hj & HX & Hb & Hcon & _).
    destruct (IHHH0 Hk pos reps eq_refl HG') as (n2 & Hn2).
    exists (n1 + n2). intros N F HN HF. destruct (Hn2 N F ltac:(lia) HF) as (reps' & HS & HO).
    eexists. cbn [sflat_map]. unfold sbind, cont_one_st at 1, sbind.
    rewrite (cont_one_run ins k merge N F r0 w w1 q w2 _ HF H (Hn N ltac:(lia)) ltac:(discriminate)).
    unfold slift. rewrite HS. split; [reflexivity|]. cbn. rewrite off_cont_ok by congruence. congruence.
  - destruct reps as [|r0 reps]; [discriminate|]. injection Hreps as <- Hreps.
    inversion HG as [|? ? (G1 & G2 & G3) HG']; subst.
    pose proof (Hk (f_val (off r0)) w) as Hq. rewrite H in Hq.
    destruct (ureach_offer _ _ _ _ _ _ _ _ _ _ _ _ Hq (proj2 G1) G2 (IHHH Hq (proj2 G1) _ G2 eq_refl))
      as (n1 & reps1 & Hn & Hr & _).
    destruct (IHHH0 Hk pos reps eq_refl HG') as (n2 & Hn2).
    exists (n1 + n2). intros N F HN HF. destruct (Hn2 N F ltac:(lia) HF) as (reps' & HS & HO).
    eexists. cbn [sflat_map]. unfold sbind, cont_one_st at 1, sbind.
    rewrite (cont_one_run ins k merge N F r0 w w1 q w2 _ HF H (Hn N ltac:(lia)) ltac:(discriminate)).
    unfold slift. rewrite HS. split; [reflexivity|].
    cbn. rewrite map_app, map_map, (map_ext _ _ (off_cont_rec merge r0)), <- (map_map off).
    rewrite Hr. congruence.
  - destruct reps as [|r0 reps]; [discriminate|]. injection Hreps as <- Hreps.
    inversion HG as [|? ? (G1 & G2 & G3) HG']; subst.
    pose proof (Hk (f_val (off r0)) w) as Hq. rewrite H in Hq.
    destruct (ureach_fail _ _ _ _ _ _ _ _ _ _ (IHHH Hq (proj2 G1) _ G2 eq_refl)) as (n1 & Hn).
    destruct (IHHH0 Hk pos reps eq_refl HG') as (n2 & Hn2).
    exists (n1 + n2). intros N F HN HF. destruct (Hn2 N F ltac:(lia) HF) as (reps' & HS & HO).
    eexists. cbn [sflat_map]. unfold sbind, cont_one_st at 1, sbind.
    rewrite (cont_one_run ins k merge N F r0 w w1 q w2 _ HF H (Hn N ltac:(lia)) ltac:(discriminate)).
    unfold slift. rewrite HS. split; [reflexivity|]. exact HO.
  - destruct reps as [|r0 reps]; [discriminate|]. injection Hreps as <- Hreps.
    exists 0. intros N F HN HF. cbn [sflat_map]. unfold sbind, cont_one_st at 1, sbind.
    rewrite (HF (r_val r0) (r_pos r0) (r_ctx r0) (r_ins r0) w w1 (Raise e)); [reflexivity| |discriminate].
    unfold sbind. change (r_val r0) with (f_val (off r0)). rewrite H. reflexivity.
  - destruct reps as [|r0 reps]; [discriminate|]. injection Hreps as <- Hreps.
    inversion HG as [|? ? (G1 & G2 & G3) HG']; subst.
    pose proof (Hk (f_val (off r0)) w) as Hq. rewrite H in Hq.
    destruct (ureach_exn _ _ _ _ _ _ _ _ (IHHH Hq (proj2 G1) _ G2 eq_refl)) as (n1 & Hn).
    exists n1. intros N F HN HF. cbn [sflat_map]. unfold sbind, cont_one_st at 1, sbind.
    rewrite (cont_one_run ins k merge N F r0 w w1 q w2 _ HF H (Hn N ltac:(lia)) ltac:(discriminate)). reflexivity.
  - destruct reps as [|r0 reps]; [discriminate|]. injection Hreps as <- Hreps.
    inversion HG as [|? ? (G1 & G2 & G3) HG']; subst.
    pose proof (Hk (f_val (off r0)) w) as Hq. rewrite H in Hq.
    destruct (ureach_any _ _ _ _ _ _ _ _ Hq (proj2 G1) G2 (IHHH Hq (proj2 G1) _ G2 eq_refl)) as (n1 & x & Hn & Hx & _).
    destruct (IHHH0 Hk pos reps eq_refl HG') as (n2 & Hn2).
    exists (n1 + n2). intros N F HN HF. pose proof (Hn2 N F ltac:(lia) HF) as HS.
    cbn [sflat_map]. unfold sbind, cont_one_st at 1, sbind.
    rewrite (cont_one_run ins k merge N F r0 w w1 q w2 x HF H (Hn N ltac:(lia)) ltac:(intros ->; discriminate)).
    destruct x as [[o1|e1|c1]|e1|]; cbn in Hx; try discriminate; unfold slift; rewrite ?HS; try reflexivity.
    injection Hx as <-. contradiction.
Qed.
End Complete.
