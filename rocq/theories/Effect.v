(** Both interpreters with stateful callbacks compute exactly the rules of
    [EffectSpec.v]: soundness. *)
From Verif Require Export EffectRun.

Section Effect.
Context {St T : Type} {V : nat -> Type}.
Variable E : senv St T V.
Variable s : list T.
Variable get : loc -> list T -> nat -> loc.
Variable locof : nat -> loc.
Variable lay : Prop.
Hypothesis Hco : cohere get s locof.
Hypothesis Hlay : lay -> exactpos s locof.
Definition egok {A} (g : sgram St T V A) : Prop :=
  sall (fun A g => ewf_node A g /\ (sis_layout A g -> lay)) g.
Notation sgok := egok.
Hypothesis HE : forall d, sgok (E d).
Let CS := pos_system s get locof lay Hco Hlay.
Let Cok := pos_Cok (T:=T) get locof.
Let len := List.length s.
Notation eff := (eff E s locof).
Notation econts := (econts E s locof).

Definition grep (pos : nat) (m : Z) {A} (r : repair T A) : Prop :=
  pos <= r_pos r <= len /\ Cok (r_pos r) (r_ctx r) /\ ctx_mark (r_ctx r) = m.
Definition rpost {A} (md : mode) (pos : nat) (c : ctx T) (x : out (res T A)) : Prop :=
  match x with
  | Ret (ROk o) => pos <= ok_pos o <= len /\ ok_con o = Nat.ltb pos (ok_pos o) /\
      Cok (ok_pos o) (ok_ctx o) /\ ctx_mark (ok_ctx o) = ctx_mark c
  | Ret (RRec rc) => md <> Plain /\ (allowance md = None -> rc_con rc = true) /\
      Forall (grep pos (ctx_mark c)) (rc_reps rc)
  | _ => True
  end.
Definition ugood {A} (g : sgram St T V A) md pos c w (x : St * out (res T A)) : Prop :=
  rpost md pos c (snd x) /\
  forall o, rabs (snd x) = Some o -> eff A g (ctx_mark c) pos md w o (fst x).

Lemma rpost_okcon {A} md pos c (r : res T A) : rpost md pos c (Ret r) -> rokcon pos r.
Proof. destruct r; cbn; tauto. Qed.
Lemma rpost_here {A} md pos c (v : A) x : pos <= len -> Cok pos c -> rpost md pos c (Ret (ROk (Ok v pos c x false))).
Proof. intros Hp Hc. cbn -[Nat.ltb]. rewrite Nat.ltb_irrefl. repeat split; auto; apply Hc. Qed.
Lemma rpost_hush {A} md pos c (x : out (res T A)) : rpost (hush md) pos c x -> rpost md pos c x.
Proof.
  destruct x as [[o|e|rc]|e|]; cbn; auto. intros (H1 & H2 & H3). split; [|split; auto].
  - destruct md; cbn in H1; congruence.
  - intros _. apply H2. destruct md; reflexivity.
Qed.
Lemma hush_none md : allowance (hush md) = None.
Proof. destruct md; reflexivity. Qed.
Lemma grep_mono {A} pos pos' m (r : repair T A) : pos <= pos' -> grep pos' m r -> grep pos m r.
Proof. intros H (H1 & H2). split; [lia|auto]. Qed.
Lemma grep_eq {A B} pos m (r : repair T A) (r' : repair T B) :
  r_pos r' = r_pos r -> r_ctx r' = r_ctx r -> grep pos m r -> grep pos m r'.
Proof. unfold grep. intros -> ->. auto. Qed.
Lemma Forall_grep_map {A B} pos m (h : repair T A -> repair T B) l :
  (forall r, r_pos (h r) = r_pos r) -> (forall r, r_ctx (h r) = r_ctx r) ->
  Forall (grep pos m) l -> Forall (grep pos m) (map h l).
Proof.
  intros H1 H2 H. apply Forall_forall. intros r' Hr. apply in_map_iff in Hr as (r & <- & Hr).
  rewrite Forall_forall in H. eapply grep_eq; eauto.
Qed.
Lemma rpost_prepend {A} md pos pos' c c' x b (r : res T A) :
  pos <= pos' -> b = Nat.ltb pos pos' -> ctx_mark c' = ctx_mark c ->
  rpost (renew md pos pos') pos' c' (Ret r) -> rpost md pos c (Ret (res_prepend x b r)).
Proof.
  intros Hp Hb Hm H. destruct r as [o|e|rc]; cbn -[Nat.ltb] in H |- *; auto.
  - destruct H as (H1 & H2 & H3 & H4). unfold ok_prepend. destruct (ok_con o) eqn:Hc; cbn -[Nat.ltb].
    + symmetry in H2. apply Nat.ltb_lt in H2. rewrite Hc.
      split; [lia|]. split; [symmetry; apply Nat.ltb_lt; lia|]. split; [exact H3|congruence].
    + symmetry in H2. apply Nat.ltb_ge in H2. assert (Hp' : ok_pos o = pos') by lia.
      split; [lia|]. split; [rewrite Hp'; exact Hb|]. split; [exact H3|congruence].
  - destruct H as (H1 & H2 & H3).
    split; [destruct md; cbn in H1; congruence|]. split.
    + destruct b; [intros _; destruct (rc_con rc); reflexivity|]. intros Ha. rewrite H2; [reflexivity|].
      destruct md as [|ins rem]; cbn -[Nat.ltb] in Ha |- *; auto. rewrite <- Hb. exact Ha.
    + apply Forall_grep_map; try reflexivity. rewrite <- Hm.
      eapply Forall_impl; [|exact H3]. intros r. apply grep_mono. exact Hp.
Qed.
Lemma rpost_set_exp {A} md pos c x (r : res T A) : rpost md pos c (Ret r) -> rpost md pos c (Ret (res_set_exp x r)).
Proof.
  intros H. destruct r as [o|e|rc]; cbn in H |- *; auto.
  - unfold ok_set_exp. destruct (ok_con o) eqn:Hc; cbn; auto. rewrite Hc. exact H.
  - destruct H as (H1 & H2 & H3). split; auto. split; [exact H2|].
    apply Forall_grep_map; auto.
Qed.
Lemma rpost_set_ctx {A} md pos c m (r : res T A) : Cok pos c -> pos <= len ->
  rpost md pos (set_mark (update_loc c s pos) m) (Ret r) ->
  rpost md pos c (Ret (res_set_ctx (update_loc c s pos) r)).
Proof.
  intros Hc Hp H.
  assert (K : Cok pos (update_loc c s pos)) by (apply (cs_upd _ _ _ _ _ CS pos); auto).
  destruct r as [o|e|rc]; cbn in H |- *; auto.
  - destruct H as (H1 & H2 & H3 & H4). split; [exact H1|]. split; [exact H2|]. split; [|apply upd_mark'].
    eapply (cs_mono _ _ _ _ _ CS); [exact K|unfold len in *; lia].
  - destruct H as (H1 & H2 & H3). split; auto. split; [exact H2|].
    apply Forall_forall. intros r' Hr. apply in_map_iff in Hr as (r & <- & Hr).
    rewrite Forall_forall in H3. destruct (H3 r Hr) as (K1 & _). split; [exact K1|]. cbn.
    split; [|apply upd_mark']. eapply (cs_mono _ _ _ _ _ CS); [exact K|unfold len in *; lia].
Qed.
Lemma rpost_fmap_pure {A B} (h : A -> B) md pos c (r : res T A) :
  rpost md pos c (Ret r) -> rpost md pos c (res_fmap (fun v => Ret (h v)) r).
Proof.
  intros H. destruct r as [o|e|rc]; cbn in H |- *; auto. unfold rec_fmap.
  assert (K : mapM (rep_fmap (T:=T) (fun v => Ret (h v))) (rc_reps rc) =
    Ret (map (fun r => Repair (r_cost r) (r_prio r) (r_ins r) (r_ops r) (h (r_val r)) (r_pos r)
       (r_ctx r) (r_exp r) (r_con r)) (rc_reps rc))).
  { induction (rc_reps rc) as [|r l IH]; cbn; [reflexivity|].
    destruct H as (H1 & H2 & H3). inversion H3; subst. rewrite IH by auto. reflexivity. }
  rewrite K. cbn. destruct H as (H1 & H2 & H3). split; auto. split; [exact H2|].
  apply Forall_grep_map; auto.
Qed.
Lemma rpost_addv {A} md pos pos' c c' con v (x : out (res T (list A))) :
  pos <= pos' -> con = Nat.ltb pos pos' -> ctx_mark c' = ctx_mark c ->
  rpost (hush md) pos' c' x -> rpost md pos c (omap (res_addv con v) x).
Proof.
  intros Hp Hb Hm H. destruct x as [[o|e|rc]|e|]; cbn -[Nat.ltb] in H |- *; auto.
  - destruct H as (H1 & H2 & H3 & H4). split; [lia|]. split; [|split; [exact H3|congruence]].
    rewrite Hb, H2. symmetry. apply eq_true_iff_eq. rewrite orb_true_iff, !Nat.ltb_lt. lia.
  - destruct H as (H1 & H2 & H3). split; [destruct md; cbn in H1; congruence|]. split.
    + intros _. apply H2. apply hush_none.
    + apply Forall_grep_map; try reflexivity. rewrite <- Hm.
      eapply Forall_impl; [|exact H3]. intros r. apply grep_mono. exact Hp.
Qed.

(** ** Continuing repairs *)
Lemma econts_sound A B C (k : A -> St -> St * out (sgram St T V B)) (merge : A -> B -> C) pos m ins
    (F : A -> nat -> ctx T -> Z -> st St (res T B)) :
  (forall v p c lf w, p <= len -> Cok p c -> ctx_mark c = m ->
     match k v w with
     | (w1, Ret q) => ugood q (Rec ins (Some lf)) p c w1 (F v p c lf w)
     | (w1, Raise e) => F v p c lf w = (w1, Raise e)
     | (_, NoFuel) => snd (F v p c lf w) = NoFuel
     end) ->
  forall reps w, Forall (grep pos m) reps ->
  let x := sflat_map (cont_one_st ins F merge) reps w in
  (forall l, snd x = Ret l -> Forall (grep pos m) l) /\
  forall y, cabs (snd x) = Some y -> econts A B C k merge m ins (map off reps) w y (fst x).
Proof.
  intros HF reps. induction reps as [|r reps IH]; intros w HG; cbv zeta; cbn [sflat_map].
  { cbn. split; [intros l H; injection H as <-; constructor|]. intros y H. injection H as <-. apply ec_nil. }
  inversion HG as [|? ? (G1 & G2 & G3) HG']; subst.
  unfold sbind at 1 3 5. unfold cont_one_st at 1 3 5. unfold sbind at 1 3 5.
  pose proof (HF (r_val r) (r_pos r) (r_ctx r) (r_ins r) w (proj2 G1) G2 eq_refl) as K.
  destruct (k (r_val r) w) as [w1 [q|e|]] eqn:Hk.
  - destruct K as [P1 P2].
    destruct (F (r_val r) (r_pos r) (r_ctx r) (r_ins r) w) as [w2 [[o|e|rc]|e|]]; cbn [fst snd] in P1, P2;
      unfold slift; cbn [fst snd].
    + specialize (P2 _ eq_refl). cbn in P1, P2. destruct (IH w2 HG') as [I1 I2]. unfold sbind.
      destruct (sflat_map (cont_one_st ins F merge) reps w2) as [w3 [l|e|]]; cbn [fst snd] in *.
      * split.
        -- intros l' H. injection H as <-. constructor; [|auto]. split; cbn; [lia|]. split; [apply P1|].
           destruct P1 as (_ & _ & _ & P1). congruence.
        -- intros y H. injection H as <-. cbn [map]. rewrite off_cont_ok by apply P1.
           eapply ec_succ; [exact Hk|exact P2|]. apply I2. reflexivity.
      * split; [discriminate|]. intros y H. injection H as <-.
        eapply ec_exn_later; [exact Hk|exact P2|exact I|]. apply I2. reflexivity.
      * split; discriminate.
    + specialize (P2 _ eq_refl). cbn in P2. destruct (IH w2 HG') as [I1 I2]. unfold sbind.
      destruct (sflat_map (cont_one_st ins F merge) reps w2) as [w3 [l|e'|]]; cbn [fst snd] in *.
      * split; [exact I1|]. intros y H. injection H as <-.
        eapply ec_fail; [exact Hk|exact P2|]. apply I2. reflexivity.
      * split; [discriminate|]. intros y H. injection H as <-.
        eapply ec_exn_later; [exact Hk|exact P2|exact I|]. apply I2. reflexivity.
      * split; discriminate.
    + specialize (P2 _ eq_refl). cbn in P1, P2. destruct (IH w2 HG') as [I1 I2]. unfold sbind.
      destruct (sflat_map (cont_one_st ins F merge) reps w2) as [w3 [l|e'|]]; cbn [fst snd] in *.
      * split.
        -- intros l' H. injection H as <-. apply Forall_app. split; [|auto].
           destruct P1 as (_ & _ & P1). apply Forall_forall. intros r' Hr. apply in_map_iff in Hr as (r0 & <- & Hr).
           rewrite Forall_forall in P1. destruct (P1 r0 Hr) as (K1 & K2 & K3).
           split; cbn; [lia|]. split; [exact K2|congruence].
        -- intros y H. injection H as <-.
           rewrite map_app, map_map, (map_ext _ _ (off_cont_rec merge r)), <- (map_map off).
           cbn. eapply ec_offer; [exact Hk|exact P2|]. apply I2. reflexivity.
      * split; [discriminate|]. intros y H. injection H as <-.
        eapply ec_exn_later; [exact Hk|exact P2|exact I|]. apply I2. reflexivity.
      * split; discriminate.
    + split; [discriminate|]. intros y H. injection H as <-.
      eapply ec_exn; [exact Hk|]. exact (P2 _ eq_refl).
    + split; discriminate.
  - rewrite K. cbn. split; [discriminate|]. intros y H. injection H as <-. eapply ec_raise. exact Hk.
  - destruct (F (r_val r) (r_pos r) (r_ctx r) (r_ins r) w) as [w2 x]. cbn in K. subst x. cbn.
    split; discriminate.
Qed.

Lemma continue_sound A B C (k : A -> St -> St * out (sgram St T V B)) (merge : A -> B -> C) pos c ins rem
    (F : A -> nat -> ctx T -> Z -> st St (res T B)) rc w (G : sgram St T V C) w0 :
  (forall v p c' lf w, p <= len -> Cok p c' -> ctx_mark c' = ctx_mark c ->
     match k v w with
     | (w1, Ret q) => ugood q (Rec ins (Some lf)) p c' w1 (F v p c' lf w)
     | (w1, Raise e) => F v p c' lf w = (w1, Raise e)
     | (_, NoFuel) => snd (F v p c' lf w) = NoFuel
     end) ->
  Forall (grep pos (ctx_mark c)) (rc_reps rc) -> (rem = None -> rc_con rc = true) ->
  (forall x w2, econts A B C k merge (ctx_mark c) ins (map off (rc_reps rc)) w x w2 ->
     eff C G (ctx_mark c) pos (Rec ins rem) w0
       (match x with inl rs => ROffer (rc_min rc) (rc_con rc) (rc_loc rc) (rc_exp rc) rs | inr e => RExn e end) w2) ->
  ugood G (Rec ins rem) pos c w0 (continue_st rc ins F merge w).
Proof.
  intros HF HG Hn HK. destruct (econts_sound A B C k merge pos (ctx_mark c) ins F HF _ w HG) as [H1 H2].
  unfold continue_st, sbind.
  destruct (sflat_map (cont_one_st ins F merge) (rc_reps rc) w) as [w1 [l|e|]]; cbn [fst snd] in *; unfold slift.
  - split; cbn [fst snd].
    + cbn. split; [discriminate|]. split; auto.
    + intros o Ho. injection Ho as <-. apply (HK (inl (map off l))). apply H2. reflexivity.
  - split; [exact I|]. cbn. intros o Ho. injection Ho as <-. apply (HK (inr e)). apply H2. reflexivity.
  - split; [exact I|discriminate].
Qed.

(** ** Repetition *)
Lemma many_ugood A (p : sgram St T V A) ins h (F : nat -> ctx T -> st St (res T A)) :
  (h = Plain \/ h = Rec ins None) ->
  (forall pos c w, pos <= len -> Cok pos c -> ugood p h pos c w (F pos c w)) ->
  forall n md pos c w, hush md = h -> pos <= len -> Cok pos c ->
  ugood (XMany p) md pos c w (many_u F ins n false [] pos c w).
Proof.
  intros Hh HF n. induction n as [|n IH]; intros md pos c w Hmd Hpos Hc.
  { split; [exact I|discriminate]. }
  rewrite many_u_S. unfold sbind. destruct (HF pos c w Hpos Hc) as [G P].
  destruct (F pos c w) as [w1 [[o1|e|rc]|e|]]; cbn [fst snd] in G, P.
  - cbn in G. destruct G as (G1 & G2 & G3 & G4). specialize (P _ eq_refl). cbn in P. rewrite <- Hmd in P.
    destruct (ok_con o1).
    + pose proof G2 as G2'. symmetry in G2. apply Nat.ltb_lt in G2. rewrite many_u_acc.
      assert (Hm2 : hush (hush md) = h) by (rewrite Hmd; destruct Hh as [->| ->]; reflexivity).
      destruct (IH (hush md) (ok_pos o1) (ok_ctx o1) w1 Hm2 ltac:(lia) G3) as [K1 K2].
      destruct (many_u F ins n false [] (ok_pos o1) (ok_ctx o1) w1) as [w2 x]; cbn [fst snd] in K1, K2 |- *.
      rewrite G4 in K2. split; cbn [fst snd].
      * eapply rpost_addv; [|exact G2'|exact G4|]; [lia|]. exact K1.
      * intros o Ho.
        assert (exists o2, rabs x = Some o2 /\ o = on_rvalue (cons (ok_val o1)) o2) as (o2 & X1 & ->).
        { destruct x as [r|e2|]; cbn in Ho; try discriminate; injection Ho as <-; eexists; (split; [reflexivity|]).
          - apply rab_addv.
          - reflexivity. }
        eapply ef_many_more; eauto.
    + cbn. split; [exact I|]. cbn. intros o Ho. injection Ho as <-.
      symmetry in G2. apply Nat.ltb_ge in G2. assert (Hp : ok_pos o1 = pos) by lia. rewrite Hp in P.
      eapply ef_many_empty; eauto.
  - specialize (P _ eq_refl). cbn in P. rewrite <- Hmd in P. destruct (er_con e) eqn:He; unfold slift; cbn [fst snd].
    + split; [exact I|]. cbn. rewrite He. intros o Ho. injection Ho as <-. apply ef_many_fail; auto.
    + split; [apply rpost_here; auto|]. cbn. intros o Ho. injection Ho as <-. eapply ef_many_stop; eauto.
  - specialize (P _ eq_refl). cbn in P, G. destruct G as (G1 & G2 & G3).
    destruct Hh as [Hh|Hh]; [congruence|]. subst h.
    destruct md as [|ins' rem]; [discriminate|]. cbn in Hmd, P. injection Hmd as ->.
    apply (continue_sound A (list A) (list A) (fun _ w => (w, Ret (XMany p))) cons pos c ins rem
      (fun _ p' c' _ => many_u F ins n false [] p' c') rc w1 (XMany p) w).
    + intros v p' c' lf w' Hp' Hc' Hm'. apply IH; auto.
    + exact G3.
    + intros _. apply G2. reflexivity.
    + intros [rs|e] w2 K.
      * eapply ef_many_offer; eauto.
      * eapply ef_many_offer_exn; eauto.
  - specialize (P _ eq_refl). cbn in P. rewrite <- Hmd in P. cbn. split; [exact I|]. intros o Ho. injection Ho as <-.
    apply ef_many_exn; auto.
  - cbn. split; [exact I|discriminate].
Qed.

(** ** Primitives without callbacks *)
Lemma prim_good A (g : gram T V A) md pos c w : calls_nothing g -> gok lay g -> pos <= len -> Cok pos c ->
  ugood (lift_gram g) md pos c w
    (w, match md with
        | Plain => omap sres_res (fast nothing 1 g s pos c)
        | Rec ins rem => full nothing 1 g s pos c ins rem
        end).
Proof.
  intros Hg Hk Hp Hc. assert (HN : forall d, gok lay (nothing (V:=V) (T:=T) d)) by (intros d; cbn; tauto).
  split; cbn [fst snd].
  - destruct md as [|ins rem].
    + destruct (fast nothing 1 g s pos c) as [[o|e]|e|] eqn:HF; cbn; auto.
      exact (good_ok nothing s get locof lay Hco Hlay HN _ _ _ _ _ _ Hk Hp Hc HF).
    + destruct (full nothing 1 g s pos c ins rem) as [r|e|] eqn:HF; cbn; auto.
      pose proof (fgood nothing s get locof lay Hco Hlay HN _ _ _ _ _ _ _ _ Hk Hp Hc HF) as K.
      destruct r as [o|e|rc]; auto. split; [discriminate|]. split.
      * intros ->. eapply none_open; eauto.
      * pose proof (full_good nothing s _ _ _ _ CS HN _ _ _ _ _ _ _ _ Hk Hp Hc HF) as KK. cbn in KK.
        destruct KK as [_ KK]. apply Forall_forall. intros r Hr.
        destruct (KK r Hr) as [(sk & _ & _ & _ & _ & K1 & K2 & K3) _]. split; [apply K1|]. auto.
  - intros o Ho. destruct md as [|ins rem].
    + assert (exists d, dabs (fast nothing 1 g s pos c) = Some d /\ o = plain d) as (d & D1 & ->).
      { destruct (fast nothing 1 g s pos c) as [[o1|e]|e|]; cbn in Ho; try discriminate; injection Ho as <-;
          eexists; split; reflexivity. }
      apply ef_prim_plain; auto.
      exact (diag_sound nothing s get locof lay Hco Hlay HN _ _ _ _ _ _ Hk Hp Hc D1).
    + apply ef_prim; auto.
      exact (rec_sound nothing s get locof lay Hco Hlay HN _ _ _ _ _ _ _ _ Hk Hp Hc Ho).
Qed.

(** ** satisfy *)
Lemma seek_sound (test : T -> st St bool) k : forall j w, j + k = len -> 
  match skip_loop_st (probe_tok_st test s) k j w with
  | (w', Ret x) => seek test s j w (inl x) w' /\
      match x with Some (q, t) => j <= q < len | None => True end
  | (w', Raise e) => seek test s j w (inr e) w'
  | (_, NoFuel) => True
  end.
Proof.
  induction k as [|k IH]; intros j w Hj; cbn [skip_loop_st].
  { cbn. split; auto. apply sk_end. unfold len in Hj. lia. }
  destruct (nth_error s j) as [t|] eqn:Hn; [|apply nth_error_None in Hn; unfold len in Hj; lia].
  unfold sbind, probe_tok_st at 1. rewrite Hn. unfold sbind.
  destruct (test t w) as [w1 [[]|e|]] eqn:Ht; cbn.
  - split; [eapply sk_hit; eauto|]. lia.
  - specialize (IH (S j) w1 ltac:(lia)).
    destruct (skip_loop_st (probe_tok_st test s) k (S j) w1) as [w2 [x|e|]]; auto.
    + destruct IH as [I1 I2]. split; [eapply sk_next; eauto|]. destruct x as [[q u]|]; auto. lia.
    + eapply sk_next; eauto.
  - eapply sk_raise; eauto.
  - exact I.
Qed.
Lemma satisfy_good n test md pos c w : pos <= len -> Cok pos c ->
  ugood (XSatisfy test) md pos c w (urun E (S n) md (XSatisfy test) s pos c w).
Proof.
  intros Hp Hc. pose proof (Cloc s get locof lay Hco Hlay pos c Hc Hp) as HL.
  assert (HX : urun E (S n) md (XSatisfy test) s pos c w =
    match md with
    | Plain => urun E (S n) (Rec 0 None) (XSatisfy test) s pos c w
    | _ => satisfy_sr test s pos c (in_row md) (allowance md) w end).
  { destruct md as [|ins rem]; [|reflexivity]. cbn. unfold satisfy_sf, satisfy_sr, sbind.
    destruct (probe_tok_st test s pos w) as [w1 [[t|]|e|]]; reflexivity. }
  assert (HY : urun E (S n) md (XSatisfy test) s pos c w = satisfy_sr test s pos c (in_row md) (allowance md) w)
    by (rewrite HX; destruct md; reflexivity).
  rewrite HY. clear HX HY. unfold satisfy_sr, sbind, probe_tok_st at 1.
  destruct (nth_error s pos) as [t|] eqn:Hn.
  - assert (pos < len) by (apply nth_error_Some; congruence). unfold sbind.
    destruct (test t w) as [w1 [[]|e|]] eqn:Ht; unfold slift; cbn [fst snd].
    + split; cbn -[Nat.ltb].
      * split; [lia|]. split; [symmetry; apply Nat.ltb_lt; lia|].
        split; [eapply (cs_mono _ _ _ _ _ CS); eauto; unfold len in *; lia|reflexivity].
      * intros o Ho. injection Ho as <-. eapply ef_sat; eauto.
    + assert (Hr : rejected test s pos w w1) by (unfold rejected; rewrite Hn; exact Ht).
      destruct (allowance md) as [lf|] eqn:Ha.
      * destruct md as [|ins rem]; [discriminate|]. cbn in Ha. subst rem. cbn [in_row].
        pose proof (seek_sound test (List.length s - S pos) (S pos) w1 ltac:(unfold len in *; lia)) as K.
        unfold sbind. destruct (skip_loop_st _ _ _ w1) as [w2 [[[q u]|]|e|]]; cbn [fst snd].
        -- destruct K as [K1 K2]. rewrite HL. split.
           ++ cbn. split; [discriminate|]. split; [discriminate|]. constructor; [|constructor].
              split; cbn; [lia|]. split; [|apply upd_mark'].
              apply (cs_upd _ _ _ _ _ CS pos); auto. unfold len in *; lia.
           ++ intros o Ho. injection Ho as <-. eapply ef_sat_skip; eauto.
        -- destruct K as [K1 K2]. split; [exact I|]. rewrite HL. cbn. intros o Ho. injection Ho as <-.
           eapply ef_sat_none; eauto.
        -- split; [exact I|]. cbn. intros o Ho. injection Ho as <-. eapply ef_sat_later_exn; eauto.
        -- split; [exact I|discriminate].
      * cbn. split; [exact I|]. rewrite HL. intros o Ho. injection Ho as <-. eapply ef_sat_fail; eauto.
    + split; [exact I|]. cbn. intros o Ho. injection Ho as <-. eapply ef_sat_exn; eauto.
    + split; [exact I|discriminate].
  - assert (Hr : rejected test s pos w w) by (unfold rejected; rewrite Hn; reflexivity).
    apply nth_error_None in Hn. unfold slift; cbn [fst snd].
    destruct (allowance md) as [lf|] eqn:Ha.
    + destruct md as [|ins rem]; [discriminate|]. cbn in Ha. subst rem. cbn [in_row].
      replace (List.length s - S pos) with 0 by lia. cbn [skip_loop_st]. unfold sbind, slift. cbn [fst snd].
      split; [exact I|]. cbn. rewrite HL. intros o Ho. injection Ho as <-.
      eapply ef_sat_none; eauto. apply sk_end. lia.
    + cbn. split; [exact I|]. rewrite HL. intros o Ho. injection Ho as <-. eapply ef_sat_fail; eauto.
Qed.

(** ** Soundness *)
Definition US n : Prop := forall A (g : sgram St T V A) md pos c w,
  sgok g -> pos <= len -> Cok pos c -> ugood g md pos c w (urun E n md g s pos c w).

Lemma ugood_raise A (g : sgram St T V A) md pos c w w1 e :
  eff A g (ctx_mark c) pos md w (RExn e) w1 -> ugood g md pos c w (w1, Raise e).
Proof. intros H. split; [exact I|]. intros o Ho. injection Ho as <-. exact H. Qed.
Lemma ugood_none A (g : sgram St T V A) md pos c w w1 : ugood g md pos c w (w1, NoFuel).
Proof. split; [exact I|discriminate]. Qed.
Lemma ugood_err A (g : sgram St T V A) md pos c w w1 b l X :
  eff A g (ctx_mark c) pos md w (RFail b l X) w1 -> ugood g md pos c w (w1, Ret (RErr (Err l X b))).
Proof. intros H. split; [exact I|]. intros o Ho. injection Ho as <-. exact H. Qed.
Lemma f_calls_off {A B} (f : A -> st St B) reps w :
  match smap (rep_fmap_st (T:=T) f) reps w with
  | (w', Ret l) => (w', Ret (map off l)) | (w', Raise e) => (w', Raise e) | (w', NoFuel) => (w', NoFuel)
  end = f_calls f (map off reps) w /\
  forall w' l pos m, smap (rep_fmap_st f) reps w = (w', Ret l) -> Forall (grep pos m) reps -> Forall (grep pos m) l.
Proof.
  revert w. induction reps as [|r reps IH]; intros w; cbn [smap map f_calls].
  { split; [reflexivity|]. intros w' l pos m H _. injection H as _ <-. constructor. }
  unfold sbind. unfold rep_fmap_st at 1 3. unfold sbind. cbn [f_val off].
  destruct (f (r_val r) w) as [w1 [v|e|]]; unfold slift; cbn [fst snd].
  - destruct (IH w1) as [I1 I2]. rewrite <- I1.
    destruct (smap (rep_fmap_st f) reps w1) as [w2 [l|e|]]; (split; [reflexivity|]); try discriminate.
    intros w' l' pos m H HG. injection H as <- <-. inversion HG; subst. constructor; eauto.
  - split; [reflexivity|discriminate].
  - split; [reflexivity|discriminate].
Qed.

Lemma fmap_good n A B (p : sgram St T V A) (f : A -> st St B) md pos c w : US n ->
  sgok p -> pos <= len -> Cok pos c ->
  ugood (XFmap p f) md pos c w (urun E (S n) md (XFmap p f) s pos c w).
Proof.
  intros IH Hg Hp Hc. rewrite urun_fmap. unfold sbind. destruct (IH A p md pos c w Hg Hp Hc) as [G P].
  destruct (urun E n md p s pos c w) as [w1 [[o1|[l X b]|rc]|e|]]; cbn [fst snd] in G, P.
  - specialize (P _ eq_refl). cbn in P. cbn [res_fmap_st]. unfold ok_fmap_st, sbind.
    destruct (f (ok_val o1) w1) as [w2 [v|e|]] eqn:Hf; unfold slift; cbn [fst snd].
    + split; [exact G|]. intros o Ho. injection Ho as <-. eapply ef_fmap; eauto.
    + apply ugood_raise. eapply ef_fmap_raise; eauto.
    + apply ugood_none.
  - apply ugood_err. apply ef_fmap_fail. exact (P _ eq_refl).
  - specialize (P _ eq_refl). cbn in P. cbn [res_fmap_st]. unfold rec_fmap_st, sbind.
    destruct (f_calls_off f (rc_reps rc) w1) as [F1 F2].
    destruct (smap (rep_fmap_st f) (rc_reps rc) w1) as [w2 [l|e|]]; unfold slift; cbn [fst snd].
    + split.
      * cbn in G |- *. destruct G as (G1 & G2 & G3). split; auto. split; auto. eapply F2; eauto.
      * intros o Ho. injection Ho as <-. eapply ef_fmap_offer; eauto.
    + apply ugood_raise. eapply ef_fmap_offer_raise; eauto.
    + apply ugood_none.
  - apply ugood_raise. apply ef_fmap_exn. exact (P _ eq_refl).
  - apply ugood_none.
Qed.

Lemma rpost_rec_exp {A} md pos c X (a : recr T A) : allowance md <> None ->
  rpost md pos c (Ret (RRec a)) -> rpost md pos c (Ret (RRec (rec_set_exp X a))).
Proof.
  intros Ha (H1 & H2 & H3). cbn. split; auto. split; [congruence|]. apply Forall_grep_map; auto.
Qed.
Lemma rpost_join {A} md pos c (a b : recr T A) : allowance md <> None ->
  rpost md pos c (Ret (RRec a)) -> rpost md pos c (Ret (RRec b)) ->
  rpost md pos c (Ret (RRec (join_repairs a b))).
Proof.
  intros Ha (H1 & H2 & H3) (K1 & K2 & K3). split; auto. split; [congruence|].
  assert (Q : forall f : repair T A -> bool, Forall (grep pos (ctx_mark c)) (rc_reps a ++ filter f (rc_reps b))).
  { intros f. apply Forall_app. split; auto. apply Forall_forall. intros r Hr. apply filter_In in Hr as [Hr _].
    rewrite Forall_forall in K3. auto. }
  unfold join_repairs. destruct (rc_min a), (rc_min b); try destruct (Nat.ltb _ _); destruct (rc_con a), (rc_con b); apply Q.
Qed.

Lemma alt_good n A (p q : sgram St T V A) md pos c w : US n ->
  sgok p -> sgok q -> pos <= len -> Cok pos c ->
  ugood (XAlt p q) md pos c w (urun E (S n) md (XAlt p q) s pos c w).
Proof.
  intros IH Hg1 Hg2 Hp Hc. rewrite urun_alt. unfold sbind. destruct (IH A p (hush md) pos c w Hg1 Hp Hc) as [G P].
  destruct (urun E n (hush md) p s pos c w) as [w1 [[o1|[la xa ca]|[ra mn la xa ca]]|e|]]; cbn [fst snd] in G, P.
  - split; [apply rpost_hush; exact G|]. intros o Ho. specialize (P _ Ho). injection Ho as <-. apply ef_alt_l; auto. exact I.
  - destruct ca.
    { apply ugood_err. apply ef_alt_l; [exact (P _ eq_refl)|reflexivity]. }
    specialize (P _ eq_refl). cbn in P. clear G. unfold alt_rest, sbind at 1.
    destruct (IH A q (hush md) pos c w1 Hg2 Hp Hc) as [G' P'].
    destruct (urun E n (hush md) q s pos c w1) as [w2 [[o2|[lb xb cb]|[rb mb lb xb cb]]|e|]]; cbn [fst snd] in G', P';
      cbn [res_con er_con rc_con].
    + specialize (P' _ eq_refl). cbn in P'. apply rpost_hush in G'.
      assert (OC : ok_con o2 = Nat.ltb pos (ok_pos o2)) by apply G'.
      pose proof (ef_alt_r E s locof A p q (ctx_mark c) pos md la xa _ w w1 w2 P P' I) as K. cbn -[Nat.ltb] in K.
      rewrite <- OC in K.
      destruct (ok_con o2) eqn:H2; unfold slift; cbn [fst snd].
      * split; [exact G'|]. intros o Ho. injection Ho as <-. exact K.
      * split.
        -- unfold ok_set_exp. rewrite H2. cbn [fst snd]. destruct G' as (Q1 & Q2 & Q3 & Q4).
           split; [exact Q1|]. split; [cbn -[Nat.ltb]; congruence|]. split; auto.
        -- unfold ok_set_exp. rewrite H2. cbn. intros o Ho. injection Ho as <-. exact K.
    + specialize (P' _ eq_refl). cbn in P'. destruct cb.
      { apply ugood_err. exact (ef_alt_r E s locof A p q (ctx_mark c) pos md la xa _ w w1 w2 P P' eq_refl). }
      cbn [res_exp er_exp]. unfold Append.
      destruct (allowance md) as [lf|] eqn:Ha.
      2:{ apply ugood_err. eapply ef_alt_fail; eauto. }
      destruct md as [|ins rem]; [discriminate|]. cbn in Ha. subst rem. cbn [hush] in P, P'.
      unfold sbind. destruct (IH A p (Rec ins (Some lf)) pos c w2 Hg1 Hp Hc) as [G1 P1].
      destruct (urun E n (Rec ins (Some lf)) p s pos c w2) as [w3 [r1|e|]]; cbn [fst snd] in G1, P1.
      2:{ apply ugood_raise. eapply ef_alt_recover_exn; eauto. }
      2:{ apply ugood_none. }
      specialize (P1 _ eq_refl). cbn in P1.
      assert (NE : no_exn (rab r1)) by (destruct r1; exact I).
      destruct (IH A q (Rec ins (Some lf)) pos c w3 Hg2 Hp Hc) as [G2 P2].
      destruct (urun E n (Rec ins (Some lf)) q s pos c w3) as [w4 [r2|e|]]; cbn [fst snd] in G2, P2.
      2:{ apply ugood_raise.
          replace (RExn e) with (r_choice la (xa ++ xb) (rab r1) (RExn e)) by (destruct r1; reflexivity).
          eapply ef_alt_recover; eauto. }
      2:{ apply ugood_none. }
      specialize (P2 _ eq_refl). cbn in P2.
      pose proof (ef_alt_recover E s locof A p q _ pos ins lf la xa lb xb _ _ w w1 w2 w3 w4 P P' P1 NE P2) as K.
      assert (HA : allowance (Rec ins (Some lf)) <> None) by discriminate.
      destruct r1 as [s1|e1|c1], r2 as [s2|e2|c2]; unfold slift; cbn [fst snd];
        try (split; [exact I|]; cbn; intros o Ho; injection Ho as <-; exact K).
      * split; [apply rpost_rec_exp; auto|]. intros o Ho. cbn [rabs snd] in Ho. rewrite rab_relabelled in Ho.
        injection Ho as <-. exact K.
      * split; [apply rpost_rec_exp; auto|]. intros o Ho. cbn [rabs snd] in Ho. rewrite rab_relabelled in Ho.
        injection Ho as <-. exact K.
      * split; [apply rpost_rec_exp; auto|]. intros o Ho. cbn [rabs snd] in Ho. rewrite rab_relabelled in Ho.
        injection Ho as <-. exact K.
      * split; [apply rpost_rec_exp; auto|]. intros o Ho. cbn [rabs snd] in Ho. rewrite rab_relabelled in Ho.
        injection Ho as <-. exact K.
      * split; [apply rpost_rec_exp; auto; apply rpost_join; auto|]. intros o Ho. cbn [rabs snd] in Ho.
        rewrite (rab_join la) in Ho. injection Ho as <-. exact K.
    + specialize (P' _ eq_refl). cbn in P'.
      assert (cb = true) as -> by (apply (proj1 (proj2 G')); apply hush_none).
      split; [apply rpost_hush; exact G'|]. intros o Ho. injection Ho as <-.
      exact (ef_alt_r E s locof A p q (ctx_mark c) pos md la xa _ w w1 w2 P P' eq_refl).
    + apply ugood_raise.
      exact (ef_alt_r E s locof A p q (ctx_mark c) pos md la xa _ w w1 w2 P (P' _ eq_refl) I).
    + apply ugood_none.
  - specialize (P _ eq_refl). cbn in P.
    assert (ca = true) as -> by (apply (proj1 (proj2 G)); apply hush_none).
    split; [apply rpost_hush; exact G|]. intros o Ho. injection Ho as <-. apply ef_alt_l; [exact P|reflexivity].
  - apply ugood_raise. apply ef_alt_l; [exact (P _ eq_refl)|exact I].
  - apply ugood_none.
Qed.

Lemma renewb_renew md i j b : b = Nat.ltb i j -> renewb md b = renew md i j.
Proof. intros ->. reflexivity. Qed.

Lemma bind_good n A B (p : sgram St T V A) (f : A -> St -> St * out (sgram St T V B)) md pos c w : US n ->
  sgok p -> (forall v w, match f v w with (_, Ret q) => sgok q | _ => True end) -> pos <= len -> Cok pos c ->
  ugood (XBind p f) md pos c w (urun E (S n) md (XBind p f) s pos c w).
Proof.
  intros IH Hg1 Hg2 Hp Hc. rewrite urun_bind. unfold sbind at 1. destruct (IH A p md pos c w Hg1 Hp Hc) as [G P].
  destruct (urun E n md p s pos c w) as [w1 [[o1|[l X b]|rc]|e|]]; cbn [fst snd] in G, P.
  - specialize (P _ eq_refl). cbn in P. destruct G as (G1 & G2 & G3 & G4).
    rewrite (renewb_renew md pos (ok_pos o1)) by exact G2.
    unfold sbind. pose proof (Hg2 (ok_val o1) w1) as Hq. destruct (f (ok_val o1) w1) as [w2 [q|e|]] eqn:Hf.
    + destruct (IH B q (renew md pos (ok_pos o1)) (ok_pos o1) (ok_ctx o1) w2 Hq (proj2 G1) G3) as [G' P'].
      rewrite G4 in P'.
      destruct (urun E n (renew md pos (ok_pos o1)) q s (ok_pos o1) (ok_ctx o1) w2) as [w3 [r|e|]]; cbn [fst snd] in G', P';
        unfold slift; cbn [fst snd].
      * split; cbn [fst snd].
        -- apply (rpost_prepend md pos (ok_pos o1) c (ok_ctx o1)); auto; lia.
        -- cbn [rabs]. rewrite (rab_prepend pos (ok_pos o1)); [|exact G2|eapply rpost_okcon; eauto].
           intros o Ho. injection Ho as <-. eapply ef_bind; eauto.
      * apply ugood_raise. change (RExn e) with (r_after (A:=B) pos (ok_pos o1) (ok_exp o1) (RExn e)).
        eapply ef_bind; eauto.
      * apply ugood_none.
    + apply ugood_raise. eapply ef_bind_raise; eauto.
    + apply ugood_none.
  - apply ugood_err. apply ef_bind_fail. exact (P _ eq_refl).
  - specialize (P _ eq_refl). cbn in P. destruct G as (G1 & G2 & G3).
    destruct md as [|ins rem]; [congruence|]. cbn [in_row].
    apply (continue_sound A B B f (fun _ v => v) pos c ins rem _ rc w1 (XBind p f) w); auto.
    + intros v p' c' lf w' Hp' Hc' Hm'. unfold sbind. pose proof (Hg2 v w') as Hq.
      destruct (f v w') as [w2 [q|e|]]; auto. 
    + intros [rs|e] w2 K; [eapply ef_bind_offer; eauto|eapply ef_bind_offer_exn; eauto].
  - apply ugood_raise. apply ef_bind_exn. exact (P _ eq_refl).
  - apply ugood_none.
Qed.

Lemma seq_good n A B C (p : sgram St T V A) (q : sgram St T V B) (merge : A -> B -> C) md pos c w : US n ->
  sgok p -> sgok q -> pos <= len -> Cok pos c ->
  ugood (XSeq p q merge) md pos c w (urun E (S n) md (XSeq p q merge) s pos c w).
Proof.
  intros IH Hg1 Hg2 Hp Hc. rewrite urun_seq. unfold sbind at 1. destruct (IH A p md pos c w Hg1 Hp Hc) as [G P].
  destruct (urun E n md p s pos c w) as [w1 [[o1|[l X b]|rc]|e|]]; cbn [fst snd] in G, P.
  - specialize (P _ eq_refl). cbn in P. destruct G as (G1 & G2 & G3 & G4).
    rewrite (renewb_renew md pos (ok_pos o1)) by exact G2. unfold sbind.
    destruct (IH B q (renew md pos (ok_pos o1)) (ok_pos o1) (ok_ctx o1) w1 Hg2 (proj2 G1) G3) as [G' P'].
    rewrite G4 in P'.
    destruct (urun E n (renew md pos (ok_pos o1)) q s (ok_pos o1) (ok_ctx o1) w1) as [w2 [r|e|]]; cbn [fst snd] in G', P';
      unfold slift; cbn [fst snd].
    + destruct (rab_fmap_pure (merge (ok_val o1)) r) as (r' & Hr' & Hab).
      pose proof (rpost_fmap_pure (merge (ok_val o1)) _ _ _ _ G') as G''. rewrite Hr' in G'' |- *. cbn [obind].
      split; cbn [fst snd].
      * apply (rpost_prepend md pos (ok_pos o1) c (ok_ctx o1)); auto; lia.
      * cbn [rabs]. rewrite (rab_prepend pos (ok_pos o1)); [|exact G2|eapply rpost_okcon; eauto].
        rewrite Hab.
        replace (r_after pos (ok_pos o1) (ok_exp o1) (on_rvalue (merge (ok_val o1)) (rab r)))
          with (on_rvalue (merge (ok_val o1)) (r_after pos (ok_pos o1) (ok_exp o1) (rab r)))
          by (destruct r; cbn; try reflexivity; rewrite !map_map; reflexivity).
        intros o Ho. injection Ho as <-. eapply ef_seq; eauto.
    + apply ugood_raise.
      change (RExn e) with (on_rvalue (merge (ok_val o1)) (r_after (A:=B) pos (ok_pos o1) (ok_exp o1) (RExn e))).
      eapply ef_seq; eauto.
    + apply ugood_none.
  - apply ugood_err. apply ef_seq_fail. exact (P _ eq_refl).
  - specialize (P _ eq_refl). cbn in P. destruct G as (G1 & G2 & G3).
    destruct md as [|ins rem]; [congruence|]. cbn [in_row].
    apply (continue_sound A B C (fun _ w => (w, Ret q)) merge pos c ins rem _ rc w1 (XSeq p q merge) w); auto.
    intros [rs|e] w2 K; [eapply ef_seq_offer; eauto|eapply ef_seq_offer_exn; eauto].
  - apply ugood_raise. apply ef_seq_exn. exact (P _ eq_refl).
  - apply ugood_none.
Qed.

Lemma maybe_good n A (p : sgram St T V A) md pos c w : US n -> sgok p -> pos <= len -> Cok pos c ->
  ugood (XMaybe p) md pos c w (urun E (S n) md (XMaybe p) s pos c w).
Proof.
  intros IH Hg Hp Hc. rewrite urun_maybe. unfold sbind. destruct (IH A p (hush md) pos c w Hg Hp Hc) as [G P].
  destruct (urun E n (hush md) p s pos c w) as [w1 [r|e|]]; cbn [fst snd] in G, P; unfold slift.
  - specialize (P _ eq_refl). cbn in P.
    assert (K : settled (rab r) -> ugood (XMaybe p) md pos c w (w1, res_fmap (fun v => Ret (Some v)) r)).
    { intros Hs. pose proof (rpost_fmap_pure Some _ _ _ _ G) as G'.
      destruct (rab_fmap_pure Some r) as (r' & Hr & Hab). rewrite Hr in G' |- *.
      split; [apply rpost_hush; exact G'|]. cbn. rewrite Hab. intros o Ho. injection Ho as <-.
      apply ef_maybe; auto. }
    destruct r as [o1|[l X b]|rc]; cbn [res_con er_con].
    + apply K. exact I.
    + destruct b; [apply K; reflexivity|]. split; [apply rpost_here; auto|]. cbn.
      intros o Ho. injection Ho as <-. eapply ef_maybe_none; eauto.
    + assert (Hcn : rc_con rc = true) by (apply (proj1 (proj2 G)); apply hush_none).
      rewrite Hcn. apply K. cbn. exact Hcn.
  - apply ugood_raise. change (RExn e) with (on_rvalue (@Some A) (RExn e)). apply ef_maybe; [exact (P _ eq_refl)|exact I].
  - apply ugood_none.
Qed.

Lemma with_good A (p G : sgram St T V A) ins lf mk lab pos c w w1 r :
  pos <= len -> Cok pos c ->
  rpost (Rec ins (Some lf)) pos c (Ret r) ->
  (settled (rab r) \/ lf = 0%Z -> eff A G (ctx_mark c) pos (Rec ins (Some lf)) w (rab r) w1) ->
  (forall l X x w2, rab r = RFail false l X -> lf <> 0%Z -> mk s pos w1 = (w2, Ret x) ->
     eff A G (ctx_mark c) pos (Rec ins (Some lf)) w
      (ROffer None false (locof pos) [] [f_insert (Some 0) lf x pos (locof pos) (lab x) X]) w2) ->
  (forall n l X rs x w2, rab r = ROffer n false l X rs -> lf <> 0%Z -> mk s pos w1 = (w2, Ret x) ->
     eff A G (ctx_mark c) pos (Rec ins (Some lf)) w
      (ROffer n false (locof pos) X (f_insert (Some 0) lf x pos (locof pos) (lab x) X :: rs)) w2) ->
  (forall e w2, ~ settled (rab r) -> lf <> 0%Z -> mk s pos w1 = (w2, Raise e) ->
     eff A G (ctx_mark c) pos (Rec ins (Some lf)) w (RExn e) w2) ->
  ugood G (Rec ins (Some lf)) pos c w (with_rest (St:=St) lf mk lab s pos c r w1).
Proof.
  intros Hp Hc Hr Hoff Hfail Hoffer Hraise. pose proof (Cloc s get locof lay Hco Hlay pos c Hc Hp) as HL.
  assert (Koff : settled (rab r) \/ lf = 0%Z -> ugood G (Rec ins (Some lf)) pos c w (w1, Ret r)).
  { intros H. split; [exact Hr|]. cbn. intros o Ho. injection Ho as <-. auto. }
  destruct r as [o1|[l X b]|rc]; cbn [with_rest res_con er_con].
  - apply Koff. left. exact I.
  - destruct b; [apply Koff; left; reflexivity|].
    destruct (Z.eqb_spec lf 0) as [Hz|Hz]; [apply Koff; auto|]. unfold sbind.
    destruct (mk s pos w1) as [w2 [x|e|]] eqn:Hk; cbv zeta; unfold slift; cbn [fst snd].
    + rewrite HL. split.
      * cbn. split; [discriminate|]. split; [discriminate|]. constructor; [|constructor].
        split; cbn; [lia|]. split; [exact Hc|reflexivity].
      * intros o Ho. injection Ho as <-. cbn. apply (Hfail l X x w2); auto.
    + apply ugood_raise. apply Hraise; auto. cbn. discriminate.
    + apply ugood_none.
  - destruct (rc_con rc) eqn:Hcn; [apply Koff; left; exact Hcn|].
    destruct (Z.eqb_spec lf 0) as [Hz|Hz]; [apply Koff; auto|]. unfold sbind.
    destruct (mk s pos w1) as [w2 [x|e|]] eqn:Hk; cbv zeta; unfold slift; cbn [fst snd].
    + rewrite HL. split.
      * cbn. split; [discriminate|]. split; [discriminate|]. constructor; [|apply Hr].
        split; cbn; [lia|]. split; [exact Hc|reflexivity].
      * intros o Ho. injection Ho as <-. cbn. eapply Hoffer; eauto; cbn; rewrite Hcn; reflexivity.
    + apply ugood_raise. apply Hraise; auto. cbn. rewrite Hcn. discriminate.
    + apply ugood_none.
Qed.

Theorem eff_sound n : US n.
Proof.
  induction n as [|n IH]; intros A g md pos c w Hg Hpos Hc.
  { destruct md; apply ugood_none. }
  assert (Hcol : sis_layout A g -> loc_col (ctx_loc (update_loc c s pos)) = loc_col (locof pos)).
  { intros HL. pose proof (sall_node s get locof _ _ _ Hg) as [_ HL'].
    destruct (cs_col _ _ _ _ _ CS pos c (HL' HL) Hc Hpos) as [_ K]. exact K. }
  assert (Hloc : sis_layout A g -> ctx_loc (update_loc c s pos) = locof pos).
  { intros HL. pose proof (sall_node s get locof _ _ _ Hg) as [_ HL'].
    destruct (cs_col _ _ _ _ _ CS pos c (HL' HL) Hc Hpos) as [K _]. exact K. }
  assert (Hcu : Cok pos (update_loc c s pos))
    by (apply (cs_upd _ _ _ _ _ CS pos); auto).
  assert (PR : forall (g' : gram T V A), calls_nothing g' -> gok lay g' -> lift_gram g' = g ->
    urun E (S n) md g s pos c w = (w, match md with Plain => omap sres_res (fast nothing 1 g' s pos c)
        | Rec ins rem => full nothing 1 g' s pos c ins rem end) ->
    ugood g md pos c w (urun E (S n) md g s pos c w)).
  { intros g' H1 H2 <- ->. apply prim_good; auto. }
  destruct g; simpl in Hg.
  - apply (PR (GPure x)); [exact I|simpl; tauto|reflexivity|]. destruct md; reflexivity.
  - (* pure_fn *)
    replace (urun E (S n) md (XPureFn f) s pos c w) with
      (sbind (f tt) (fun x => slift (Ret (ROk (T:=T) (Ok x pos c [] false)))) w).
    2:{ destruct md; cbn; [|reflexivity]. unfold purefn_sf, sbind. destruct (f tt w) as [w1 [v|e|]]; reflexivity. }
    unfold sbind. destruct (f tt w) as [w1 [v|e|]] eqn:Hf; unfold slift.
    + split; [apply rpost_here; auto|]. cbn. intros o Ho. injection Ho as <-. apply ef_purefn; auto.
    + apply ugood_raise. apply ef_purefn_exn; auto.
    + apply ugood_none.
  - apply (PR (GUnexpected l)); [exact I|simpl; tauto|reflexivity|]. destruct md; reflexivity.
  - apply (PR GEof); [exact I|simpl; tauto|reflexivity|]. destruct md; [|reflexivity].
    cbn. unfold sbind, slift. destruct (eof_fast s pos c); reflexivity.
  - apply satisfy_good; auto.
  - apply (PR (GSym teq x l)); [exact I|simpl; tauto|reflexivity|]. destruct md; [|reflexivity].
    cbn. unfold sbind, slift. destruct (sym_fast teq x l s pos c); reflexivity.
  - apply (PR (GLiteral teq x l)); [exact I|simpl; tauto|reflexivity|]. destruct md; [|reflexivity].
    cbn. unfold sbind, slift. destruct (literal_fast teq x l s pos c); reflexivity.
  - apply (PR (GRegexp m)); [exact I|simpl; tauto|reflexivity|]. destruct md; [|reflexivity].
    cbn. unfold sbind, slift. destruct (regexp_fast m s pos c); reflexivity.
  - apply fmap_good; auto; apply Hg.
  - apply alt_good; auto; apply Hg.
  - apply bind_good; auto; apply Hg.
  - apply seq_good; auto; apply Hg.
  - apply maybe_good; auto; apply Hg.
  - (* many *) rewrite urun_many. eapply many_ugood; [| |reflexivity|exact Hpos|exact Hc].
    + destruct md; [left|right]; reflexivity.
    + intros pos' c' w' Hp' Hc'. apply IH; auto. apply Hg.
  - (* attempt *) destruct Hg as [_ Hg]. rewrite urun_attempt. destruct (allowance md) as [lf|] eqn:Ha.
    + destruct md as [|ins rem]; [discriminate|]. cbn in Ha. subst rem.
      destruct (IH _ g (Rec ins (Some lf)) pos c w Hg Hpos Hc) as [G P]. split; [exact G|].
      intros o Ho. apply ef_attempt. auto.
    + destruct (IH _ g Plain pos c w Hg Hpos Hc) as [G P]. unfold sbind.
      destruct (urun E n Plain g s pos c w) as [w1 [[o1|[l X b]|rc]|e|]]; cbn [fst snd] in G, P.
      * split; [exact G|]. intros o Ho. injection Ho as <-. 
        change (RSucc (ok_val o1) (ok_pos o1) (ok_exp o1)) with (uncommitted (RSucc (ok_val o1) (ok_pos o1) (ok_exp o1))).
        apply ef_attempt_plain; [exact Ha|exact (P _ eq_refl)].
      * apply ugood_err.
        exact (ef_attempt_plain E s locof A g _ pos md (RFail b l X) w w1 Ha (P _ eq_refl)).
      * destruct G as (G & _). congruence.
      * apply ugood_raise. change (RExn e) with (uncommitted (A:=A) (RExn e)).
        apply ef_attempt_plain; [exact Ha|exact (P _ eq_refl)].
      * apply ugood_none.
  - (* label *) destruct Hg as [_ Hg]. rewrite urun_label. unfold sbind.
    destruct (IH _ g md pos c w Hg Hpos Hc) as [G P].
    destruct (urun E n md g s pos c w) as [w1 [r|e|]]; cbn [fst snd] in G, P; unfold slift.
    + split; cbn [fst snd]; [apply rpost_set_exp; auto|]. cbn [rabs].
      rewrite (rab_label pos) by (eapply rpost_okcon; eauto). intros o Ho. injection Ho as <-.
      apply ef_label. apply P. reflexivity.
    + apply ugood_raise. change (RExn e) with (r_label (A:=A) pos x (RExn e)). apply ef_label. apply P. reflexivity.
    + apply ugood_none.
  - (* recover *) destruct Hg as [_ Hg]. rewrite urun_recover. unfold sbind.
    destruct (IH _ g md pos c w Hg Hpos Hc) as [G P].
    destruct (urun E n md g s pos c w) as [w1 [[o1|[l X b]|rc]|e|]]; cbn [fst snd] in G, P; unfold slift.
    + split; [exact G|]. intros o Ho. injection Ho as <-.
      exact (ef_recover E s locof A g _ pos md _ w w1 (P _ eq_refl)).
    + apply ugood_err. exact (ef_recover E s locof A g _ pos md _ w w1 (P _ eq_refl)).
    + split; cbn [fst snd].
      * cbn in G |- *. destruct G as (G1 & G2 & G3). split; auto. split; auto. apply Forall_grep_map; auto.
      * cbn [rabs]. rewrite rab_ranked. intros o Ho. injection Ho as <-.
        exact (ef_recover E s locof A g _ pos md _ w w1 (P _ eq_refl)).
    + apply ugood_raise. exact (ef_recover E s locof A g _ pos md _ w w1 (P _ eq_refl)).
    + apply ugood_none.
  - (* recover_with *) destruct Hg as [_ Hg]. rewrite urun_with.
    destruct (IH _ g md pos c w Hg Hpos Hc) as [G P]. destruct (allowance md) as [lf|] eqn:Ha.
    2:{ split; [exact G|]. intros o Ho. apply ef_with_none; auto. }
    destruct md as [|ins rem]; [discriminate|]. cbn in Ha. subst rem. unfold sbind.
    destruct (urun E n (Rec ins (Some lf)) g s pos c w) as [w1 [r|e|]]; cbn [fst snd] in G, P.
    + specialize (P _ eq_refl). cbn in P. apply (with_good A g); auto.
      * intros Hs. apply ef_with_off; auto.
      * intros l' X x' w2 Hr Hz Hk. injection Hk as <- <-. rewrite Hr in P. eapply ef_with_fail; eauto.
      * intros n' l' X rs x' w2 Hr Hz Hk. injection Hk as <- <-. rewrite Hr in P. eapply ef_with_offer; eauto.
      * intros e w2 _ _ Hk. discriminate.
    + apply ugood_raise. apply ef_with_off; [exact (P _ eq_refl)|left; exact I].
    + apply ugood_none.
  - (* recover_with_fn *) destruct Hg as [_ Hg]. rewrite urun_withfn.
    destruct (IH _ g md pos c w Hg Hpos Hc) as [G P]. destruct (allowance md) as [lf|] eqn:Ha.
    2:{ split; [exact G|]. intros o Ho. apply ef_withfn_none; auto. }
    destruct md as [|ins rem]; [discriminate|]. cbn in Ha. subst rem. unfold sbind.
    destruct (urun E n (Rec ins (Some lf)) g s pos c w) as [w1 [r|e|]]; cbn [fst snd] in G, P.
    + specialize (P _ eq_refl). cbn in P. apply (with_good A g); auto.
      * intros Hs. apply ef_withfn_off; auto.
      * intros l' X x' w2 Hr Hz Hk. rewrite Hr in P. eapply ef_withfn_fail; eauto.
      * intros n' l' X rs x' w2 Hr Hz Hk. rewrite Hr in P. eapply ef_withfn_offer; eauto.
      * intros e w2 Hs Hz Hk. eapply ef_withfn_raise; eauto.
    + apply ugood_raise. apply ef_withfn_off; [exact (P _ eq_refl)|left; exact I].
    + apply ugood_none.
  - (* block *) destruct Hg as [_ Hg]. rewrite urun_block. specialize (Hcol I). rewrite Hcol. unfold sbind.
    assert (Hc1 : Cok pos (set_mark (update_loc c s pos) (loc_col (locof pos)))) by (apply (cs_mark _ _ _ _ _ CS), Hcu).
    destruct (IH _ g md pos _ w Hg Hpos Hc1) as [G P].
    destruct (urun E n md g s pos _ w) as [w1 [r|e|]]; cbn [fst snd] in G, P; unfold slift.
    + split; cbn [fst snd]; [eapply rpost_set_ctx; eauto|]. cbn [rabs]. rewrite rab_set_ctx. intros o Ho.
      injection Ho as <-. apply ef_block. exact (P _ eq_refl).
    + apply ugood_raise. apply ef_block. exact (P _ eq_refl).
    + apply ugood_none.
  - (* aligned *) destruct Hg as [_ Hg]. rewrite urun_aligned. specialize (Hcol I). specialize (Hloc I).
    rewrite upd_mark', Hcol, Hloc. destruct (Z.eqb_spec (ctx_mark c) (loc_col (locof pos))) as [He|He].
    + destruct (IH _ g md pos _ w Hg Hpos Hcu) as [G P]. split.
      * unfold rpost in G |- *. rewrite upd_mark' in G. exact G.
      * intros o Ho. apply ef_aligned; auto. rewrite <- (upd_mark' s c pos). apply P. exact Ho.
    + apply ugood_err. apply ef_aligned_no. auto.
  - (* indented *) destruct Hg as [_ Hg]. rewrite urun_indented. specialize (Hcol I). specialize (Hloc I).
    rewrite upd_mark', Hcol, Hloc. destruct (Z.eqb_spec (ctx_mark c + delta) (loc_col (locof pos))) as [He|He].
    + assert (Hc1 : Cok pos (set_mark (update_loc c s pos) (loc_col (locof pos)))) by (apply (cs_mark _ _ _ _ _ CS), Hcu).
      unfold sbind. destruct (IH _ g md pos _ w Hg Hpos Hc1) as [G P].
      destruct (urun E n md g s pos _ w) as [w1 [r|e|]]; cbn [fst snd] in G, P; unfold slift.
      * split; cbn [fst snd]; [eapply rpost_set_ctx; eauto|]. cbn [rabs]. rewrite rab_set_ctx. intros o Ho.
        injection Ho as <-. apply ef_indented; [auto|exact (P _ eq_refl)].
      * apply ugood_raise. apply ef_indented; [auto|exact (P _ eq_refl)].
      * apply ugood_none.
    + apply ugood_err. apply ef_indented_no. auto.
  - rewrite urun_delay. destruct (IH _ (E d) md pos c w (HE d) Hpos Hc) as [G P]. split; [exact G|].
    intros o Ho. apply ef_delay. auto.
  - apply (PR GUndef); [exact I|simpl; tauto|reflexivity|]. destruct md; reflexivity.
Qed.
End Effect.
