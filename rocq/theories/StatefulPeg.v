(** The plain interpreter with stateful callbacks computes exactly the rules of
    [StatefulPegSpec.v]. *)
From Verif Require Export StatefulPegSpec StatefulProofs PegProofs.

Lemma many_sf_acc {St T A} (p : psf St T A) s n : forall con v pos c w,
  many_sf p n con v s pos c w =
  (fst (many_sf p n false [] s pos c w), omap (sres_add con v) (snd (many_sf p n false [] s pos c w))).
Proof.
  induction n as [|n IH]; intros con v pos c w; cbn [many_sf]; [reflexivity|].
  unfold sbind. destruct (p s pos c w) as [w1 [[o|e]|e|]]; try reflexivity.
  - destruct (ok_con o); [|reflexivity].
    rewrite (IH true (v ++ _)), (IH true ([] ++ _)). cbn [fst snd].
    destruct (many_sf p n false [] s (ok_pos o) (ok_ctx o) w1) as [w2 [[o'|e]|e|]]; simpl; try reflexivity.
    rewrite <- app_assoc. simpl. rewrite orb_true_r. reflexivity.
  - destruct (er_con e); simpl; [reflexivity|]. rewrite app_nil_r, orb_false_r. reflexivity.
Qed.

Section StatefulPeg.
Context {St T : Type} {V : nat -> Type}.
Variable E : senv St T V.
Variable s : list T.
Variable get : loc -> list T -> nat -> loc.
Variable locof : nat -> loc.
Variable lay : Prop.
Hypothesis Hco : cohere get s locof.
Hypothesis Hlay : lay -> exactpos s locof.
Definition sgok {A} (g : sgram St T V A) : Prop :=
  sall (fun A g => swf_node A g /\ (sis_layout A g -> lay)) g.
Hypothesis HE : forall d, sgok (E d).
Let col (i : nat) : Z := loc_col (locof i).
Let CS := pos_system s get locof lay Hco Hlay.
Let Cok := pos_Cok (T:=T) get locof.
Let len := List.length s.

Lemma sall_node (P : forall A, sgram St T V A -> Prop) A (g : sgram St T V A) : sall P g -> P A g.
Proof. destruct g; simpl; tauto. Qed.

(** a success ends inside the input, says correctly whether it consumed, and keeps the
    column mark *)
Definition spost {A} (pos : nat) (c : ctx T) (x : out (sres T A)) : Prop :=
  forall o, x = Ret (SOk o) ->
  pos <= ok_pos o <= len /\ ok_con o = Nat.ltb pos (ok_pos o) /\
  Cok (ok_pos o) (ok_ctx o) /\ ctx_mark (ok_ctx o) = ctx_mark c.
Lemma spost_err {A} pos c e : spost (A:=A) pos c (Ret (SErr e)).
Proof. intros o H; discriminate. Qed.
Lemma spost_raise {A} pos c (e : exn) : spost (A:=A) pos c (Raise e).
Proof. intros o H; discriminate. Qed.
Lemma spost_none {A} pos c : spost (A:=A) pos c NoFuel.
Proof. intros o H; discriminate. Qed.
Lemma spost_here {A} pos c (v : A) x : pos <= len -> Cok pos c -> spost pos c (Ret (SOk (Ok v pos c x false))).
Proof.
  intros Hp Hc o H. injection H as <-. simpl. rewrite Nat.ltb_irrefl. repeat split; auto; apply Hc.
Qed.
Lemma spost_prepend {A} pos pos' c c' x b (r : sres T A) :
  pos <= pos' -> b = Nat.ltb pos pos' -> ctx_mark c' = ctx_mark c ->
  spost pos' c' (Ret r) -> spost pos c (Ret (sres_prepend x b r)).
Proof.
  intros Hp Hb Hm H o Ho. destruct r as [o'|e]; [|discriminate]. cbn in Ho. injection Ho as <-.
  destruct (H o' eq_refl) as (H1 & H2 & H3 & H4).
  unfold ok_prepend. destruct (ok_con o') eqn:Hc; cbn.
  - symmetry in H2. apply Nat.ltb_lt in H2.
    split; [lia|]. split; [rewrite Hc; symmetry; apply Nat.ltb_lt; lia|]. split; [exact H3|congruence].
  - symmetry in H2. apply Nat.ltb_ge in H2. assert (Hp' : ok_pos o' = pos') by lia.
    split; [lia|]. split; [rewrite Hp'; exact Hb|]. split; [exact H3|congruence].
Qed.
Lemma spost_set_exp {A} pos c x (r : sres T A) : spost pos c (Ret r) -> spost pos c (Ret (sres_set_exp x r)).
Proof.
  intros H o Ho. destruct r as [o'|e]; [|discriminate]. cbn in Ho. injection Ho as <-.
  specialize (H o' eq_refl). unfold ok_set_exp. destruct (ok_con o') eqn:Hc; cbn; auto. rewrite Hc. exact H.
Qed.
Lemma spost_set_ctx {A} pos c m (r : sres T A) : Cok pos c -> pos <= len ->
  spost pos (set_mark (update_loc c s pos) m) (Ret r) ->
  spost pos c (Ret (sres_set_ctx (update_loc c s pos) r)).
Proof.
  intros Hc Hp H o Ho. destruct r as [o'|e]; [|discriminate]. cbn in Ho. injection Ho as <-. cbn.
  specialize (H o' eq_refl) as (H1 & H2 & H3 & H4).
  assert (K : Cok pos (update_loc c s pos)) by (apply (cs_upd _ _ _ _ _ CS pos); auto).
  split; [exact H1|]. split; [exact H2|]. split; [|apply upd_mark'].
  eapply (cs_mono _ _ _ _ _ CS); [exact K|lia].
Qed.
Lemma spost_fmap {A B} (f : A -> out B) pos c (r : sres T A) :
  spost pos c (Ret r) -> spost pos c (sres_fmap f r).
Proof.
  intros H o Ho. destruct r as [o'|e]; cbn in Ho; [|discriminate]. unfold ok_fmap in Ho.
  destruct (f (ok_val o')); cbn in Ho; try discriminate. injection Ho as <-. cbn. exact (H o' eq_refl).
Qed.

(** one run: its outcome is the one of the rules *)
Definition sgoodrun {A} (g : sgram St T V A) pos c w (x : St * out (sres T A)) : Prop :=
  spost pos c (snd x) /\
  forall o, abs (snd x) = Some o -> speg E s col A g (ctx_mark c) pos w o (fst x).

Lemma many_sgood A (p : sgram St T V A) (F : psf St T A) :
  (forall pos c w, pos <= len -> Cok pos c -> sgoodrun p pos c w (F s pos c w)) ->
  forall n pos c w, pos <= len -> Cok pos c ->
  sgoodrun (XMany p) pos c w (many_sf F n false [] s pos c w).
Proof.
  intros HF n. induction n as [|n IH]; intros pos c w Hpos Hc; cbn [many_sf].
  { split; [apply spost_none|discriminate]. }
  unfold sbind. destruct (HF pos c w Hpos Hc) as [G P].
  destruct (F s pos c w) as [w1 [[o1|e]|e|]]; cbn [fst snd] in G, P.
  - destruct (G o1 eq_refl) as (G1 & G2 & G3 & G4). specialize (P _ eq_refl). cbn in P.
    destruct (ok_con o1).
    + symmetry in G2. apply Nat.ltb_lt in G2. rewrite many_sf_acc.
      destruct (IH (ok_pos o1) (ok_ctx o1) w1 ltac:(lia) G3) as [K1 K2].
      destruct (many_sf F n false [] s (ok_pos o1) (ok_ctx o1) w1) as [w2 x]; cbn [fst snd] in K1, K2 |- *.
      rewrite G4 in K2. split; cbn [fst snd].
      * intros o Ho. destruct x as [[o2|e2]|e2|]; cbn in Ho; try discriminate. injection Ho as <-. cbn.
        destruct (K1 o2 eq_refl) as (L1 & L2 & L3 & L4).
        split; [lia|]. split; [symmetry; apply Nat.ltb_lt; lia|]. split; [exact L3|congruence].
      * intros o Ho.
        assert (exists o2, abs x = Some o2 /\ o = on_value (cons (ok_val o1)) o2) as (o2 & X1 & ->).
        { destruct x as [[o2|e2]|e2|]; cbn in Ho; try discriminate; injection Ho as <-; eexists; split;
            reflexivity. }
        eapply sp_many_more; eauto.
    + cbn. split; [apply spost_raise|]. intros o Ho. injection Ho as <-.
      symmetry in G2. apply Nat.ltb_ge in G2. assert (Hp : ok_pos o1 = pos) by lia. rewrite Hp in P.
      eapply sp_many_empty; eauto.
  - specialize (P _ eq_refl). cbn in P. destruct (er_con e) eqn:He; cbn.
    + split; [apply spost_err|]. intros o Ho. cbn in Ho. rewrite He in Ho. injection Ho as <-.
      apply sp_many_fail; auto.
    + split; [apply spost_here; auto|]. intros o Ho. cbn in Ho. injection Ho as <-.
      apply sp_many_stop; auto.
  - specialize (P _ eq_refl). cbn. split; [apply spost_raise|]. intros o Ho. cbn in Ho. injection Ho as <-.
    apply sp_many_exn; auto.
  - cbn. split; [apply spost_none|discriminate].
Qed.

Theorem speg_sound n : forall A (g : sgram St T V A) pos c w,
  sgok g -> pos <= len -> Cok pos c -> sgoodrun g pos c w (sfast E n g s pos c w).
Proof.
  induction n as [|n IH]; intros A g pos c w Hg Hpos Hc.
  { split; [apply spost_none|discriminate]. }
  assert (Hcol : sis_layout A g -> loc_col (ctx_loc (update_loc c s pos)) = col pos).
  { intros HL. pose proof (sall_node _ _ _ Hg) as [_ HL'].
    destruct (cs_col _ _ _ _ _ CS pos c (HL' HL) Hc Hpos) as [_ K]. exact K. }
  assert (Hcu : forall p, pos <= p <= len -> Cok p (update_loc c s p))
    by (intros p Hp; apply (cs_upd _ _ _ _ _ CS pos); auto).
  pose proof (sall_node _ _ _ Hg) as [Hwf _].
  destruct g; cbn [sfast]; simpl in Hg.
  - cbn. split; [apply spost_here; auto|]. intros o Ho. injection Ho as <-. apply sp_pure.
  - unfold purefn_sf, sbind. destruct (f tt w) as [w1 [v|e|]] eqn:Hf; cbn.
    + split; [apply spost_here; auto|]. intros o Ho. injection Ho as <-. apply sp_purefn; auto.
    + split; [apply spost_raise|]. intros o Ho. injection Ho as <-. apply sp_purefn_exn; auto.
    + split; [apply spost_none|discriminate].
  - cbn. split; [apply spost_err|]. intros o Ho. injection Ho as <-. apply sp_unexpected.
  - unfold slift, eof_fast. destruct (Nat.eqb_spec pos (List.length s)); cbn.
    + split; [apply spost_here; auto|]. intros o Ho. injection Ho as <-. subst pos. apply sp_eof.
    + split; [apply spost_err|]. intros o Ho. injection Ho as <-. apply sp_eof_fail; auto.
  - unfold satisfy_sf, probe_tok_st, sbind. destruct (nth_error s pos) as [t|] eqn:Hn.
    + assert (pos < len) by (apply nth_error_Some; congruence).
      destruct (test t w) as [w1 [[]|e|]] eqn:Ht; cbn.
      * split; [|intros o Ho; injection Ho as <-; eapply sp_sat; eauto].
        intros o Ho. injection Ho as <-. cbn. split; [lia|]. split; [symmetry; apply Nat.ltb_lt; lia|].
        split; [eapply (cs_mono _ _ _ _ _ CS); eauto; lia|reflexivity].
      * split; [apply spost_err|]. intros o Ho. injection Ho as <-. eapply sp_sat_no; eauto.
      * split; [apply spost_raise|]. intros o Ho. injection Ho as <-. eapply sp_sat_exn; eauto.
      * split; [apply spost_none|discriminate].
    + cbn. split; [apply spost_err|]. intros o Ho. injection Ho as <-. apply sp_sat_end; auto.
  - unfold slift, sym_fast, probe_sym. destruct (nth_error s pos) as [t|] eqn:Hn.
    + assert (pos < len) by (apply nth_error_Some; congruence).
      destruct (teq t x) eqn:Ht; cbn.
      * split; [|intros o Ho; injection Ho as <-; apply sp_sym; auto].
        intros o Ho. injection Ho as <-. cbn. split; [lia|]. split; [symmetry; apply Nat.ltb_lt; lia|].
        split; [eapply (cs_mono _ _ _ _ _ CS); eauto; lia|reflexivity].
      * split; [apply spost_err|]. intros o Ho. injection Ho as <-. apply sp_sym_no.
        intros t'. rewrite Hn. congruence.
    + cbn. split; [apply spost_err|]. intros o Ho. injection Ho as <-. apply sp_sym_no. rewrite Hn. discriminate.
  - unfold slift, literal_fast. destruct (starts_with teq x s pos) eqn:Hs; cbn.
    + split; [|intros o Ho; injection Ho as <-; apply sp_lit; auto].
      pose proof (starts_len s _ _ _ Hpos Hs) as Hle. cbn in Hwf.
      intros o Ho. injection Ho as <-. cbn. assert (0 < List.length x) by (destruct x; simpl; [tauto|lia]).
      split; [lia|]. split; [symmetry; apply Nat.ltb_lt; lia|]. split; [apply Hcu; lia|apply upd_mark'].
    + split; [apply spost_err|]. intros o Ho. injection Ho as <-. apply sp_lit_no; auto.
  - unfold slift, regexp_fast, probe_re. cbn in Hwf.
    destruct (m s pos) as [[e [v|]]|] eqn:Hm; cbn.
    + pose proof (Hwf _ _ _ _ Hpos Hm) as He. fold len in He.
      split; [|intros o Ho; injection Ho as <-; apply sp_re; auto].
      intros o Ho. injection Ho as <-. cbn. split; [lia|]. split; [|split; [apply Hcu; lia|apply upd_mark']].
      destruct (Nat.eqb_spec e pos); simpl; symmetry; [apply Nat.ltb_ge; lia|apply Nat.ltb_lt; lia].
    + split; [apply spost_err|]. intros o Ho. injection Ho as <-. apply sp_re_no.
      intros (e' & v & K). congruence.
    + split; [apply spost_err|]. intros o Ho. injection Ho as <-. apply sp_re_no.
      intros (e' & v & K). congruence.
  - (* fmap *) destruct Hg as [_ Hg]. destruct (IH _ g pos c w Hg Hpos Hc) as [G P].
    unfold fmap_sf, sbind. destruct (sfast E n g s pos c w) as [w1 [[o1|e]|e|]]; cbn [fst snd] in G, P.
    + specialize (P _ eq_refl). cbn in P |- *. unfold ok_fmap_st, sbind.
      destruct (f (ok_val o1) w1) as [w2 [v|e|]] eqn:Hf; cbn.
      * split; [|intros o Ho; injection Ho as <-; eapply sp_fmap; eauto].
        intros o Ho. injection Ho as <-. exact (G o1 eq_refl).
      * split; [apply spost_raise|]. intros o Ho. injection Ho as <-. eapply sp_fmap_raise; eauto.
      * split; [apply spost_none|discriminate].
    + specialize (P _ eq_refl). cbn in P |- *. split; [apply spost_err|]. intros o Ho. injection Ho as <-.
      apply sp_fmap_fail; auto.
    + specialize (P _ eq_refl). cbn in P |- *. split; [apply spost_raise|]. intros o Ho. injection Ho as <-.
      apply sp_fmap_exn; auto.
    + split; [apply spost_none|discriminate].
  - (* alt *) destruct Hg as [_ [Hg1 Hg2]]. destruct (IH _ g1 pos c w Hg1 Hpos Hc) as [G P].
    unfold alt_sf, sbind at 1. destruct (sfast E n g1 s pos c w) as [w1 [[o1|e]|e|]]; cbn [fst snd] in G, P.
    + specialize (P _ eq_refl). cbn in P |- *. split; [exact G|]. intros o Ho. injection Ho as <-.
      apply sp_alt_l; auto.
    + specialize (P _ eq_refl). cbn in P |- *. destruct (er_con e) eqn:He.
      * cbn. split; [apply spost_err|]. cbn. rewrite He. intros o Ho. injection Ho as <-. apply sp_alt_fail; auto.
      * destruct (IH _ g2 pos c w1 Hg2 Hpos Hc) as [G' P']. unfold sbind.
        destruct (sfast E n g2 s pos c w1) as [w2 x]; cbn [fst snd] in G', P'.
        destruct x as [[o2|e2]|e2|].
        -- specialize (P' _ eq_refl). cbn in P' |- *. destruct (ok_con o2) eqn:H2; cbn.
           ++ split; [exact G'|]. intros o Ho. injection Ho as <-. eapply sp_alt_r; eauto.
           ++ split; [apply (spost_set_exp _ _ _ (SOk o2)); exact G'|].
              unfold ok_set_exp. rewrite H2. cbn. intros o Ho. injection Ho as <-. eapply sp_alt_r; eauto.
        -- specialize (P' _ eq_refl). cbn in P' |- *. destruct (er_con e2) eqn:H2; cbn;
             (split; [apply spost_err|]); cbn; rewrite ?H2; intros o Ho; injection Ho as <-; eapply sp_alt_r; eauto.
        -- specialize (P' _ eq_refl). cbn. split; [apply spost_raise|]. intros o Ho; injection Ho as <-.
           eapply sp_alt_r; eauto.
        -- cbn. split; [apply spost_none|discriminate].
    + specialize (P _ eq_refl). cbn. split; [apply spost_raise|]. intros o Ho. injection Ho as <-.
      apply sp_alt_exn; auto.
    + cbn. split; [apply spost_none|discriminate].
  - (* bind *) destruct Hg as [_ [Hg1 Hg2]]. destruct (IH _ g pos c w Hg1 Hpos Hc) as [G P].
    unfold bind_sf, sbind at 1. destruct (sfast E n g s pos c w) as [w1 [[o1|e]|e|]]; cbn [fst snd] in G, P.
    + destruct (G o1 eq_refl) as (G1 & G2 & G3 & G4). specialize (P _ eq_refl). cbn in P.
      unfold sbind. specialize (Hg2 (ok_val o1) w1).
      destruct (f (ok_val o1) w1) as [w2 [q|e|]] eqn:Hf.
      * destruct (IH _ q (ok_pos o1) (ok_ctx o1) w2 Hg2 ltac:(lia) G3) as [G' P'].
        destruct (sfast E n q s (ok_pos o1) (ok_ctx o1) w2) as [w3 [r|e|]]; cbn [fst snd] in G', P'; unfold slift; cbn [fst snd].
        -- split; cbn [fst snd].
           ++ apply (spost_prepend pos (ok_pos o1) c (ok_ctx o1)); auto; lia.
           ++ rewrite abs_prepend. intros o Ho. rewrite G4 in P'.
              assert (exists o2, abs (Ret r) = Some o2 /\ o = after pos (ok_pos o1) o2) as (o2 & K1 & ->).
              { destruct (abs (Ret r)) as [o2|]; [|discriminate]. exists o2. split; auto.
                rewrite <- (after_ltb _ _ o2 _ G2). destruct o2; congruence. }
              eapply sp_bind; eauto.
        -- split; [apply spost_raise|]. intros o Ho. injection Ho as <-. specialize (P' _ eq_refl).
           rewrite G4 in P'.
           exact (sp_bind E s col _ _ g f (ctx_mark c) pos (ok_val o1) (ok_pos o1) q (PExn e) w w1 w2 w3 P Hf P').
        -- split; [apply spost_none|discriminate].
      * split; [apply spost_raise|]. intros o Ho. injection Ho as <-. eapply sp_bind_raise; eauto.
      * split; [apply spost_none|discriminate].
    + specialize (P _ eq_refl). cbn in P |- *. split; [apply spost_err|]. intros o Ho. injection Ho as <-.
      apply sp_bind_fail; auto.
    + specialize (P _ eq_refl). cbn in P |- *. split; [apply spost_raise|]. intros o Ho. injection Ho as <-.
      apply sp_bind_exn; auto.
    + cbn. split; [apply spost_none|discriminate].
  - (* seq *) destruct Hg as [_ [Hg1 Hg2]]. destruct (IH _ g1 pos c w Hg1 Hpos Hc) as [G P].
    unfold seq_sf, sbind at 1. destruct (sfast E n g1 s pos c w) as [w1 [[o1|e]|e|]]; cbn [fst snd] in G, P.
    + destruct (G o1 eq_refl) as (G1 & G2 & G3 & G4). specialize (P _ eq_refl). cbn in P. cbv zeta.
      unfold sbind. destruct (IH _ g2 (ok_pos o1) (ok_ctx o1) w1 Hg2 ltac:(lia) G3) as [G' P'].
      destruct (sfast E n g2 s (ok_pos o1) (ok_ctx o1) w1) as [w2 [r|e|]]; cbn [fst snd] in G', P'; unfold slift; cbn [fst snd].
      * rewrite G4 in P'. split; cbn [fst snd].
        -- pose proof (spost_fmap (fun vb => Ret (merge (ok_val o1) vb)) _ _ _ G') as G''.
           destruct (sres_fmap (fun vb => Ret (merge (ok_val o1) vb)) r) as [rc|x|]; cbn [obind];
             [|apply spost_raise|apply spost_none].
           apply (spost_prepend pos (ok_pos o1) c (ok_ctx o1)); auto; lia.
        -- intros o Ho.
           assert (exists o2, abs (Ret r) = Some o2 /\ o = on_value (merge (ok_val o1)) (after pos (ok_pos o1) o2))
             as (o2 & K1 & ->).
           { destruct r as [o2|e2]; cbn [sres_fmap ok_fmap obind] in Ho; rewrite abs_prepend in Ho; cbn in Ho;
               injection Ho as <-; eexists; (split; [reflexivity|]); [reflexivity|rewrite G2; reflexivity]. }
           eapply sp_seq; eauto.
      * split; [apply spost_raise|]. intros o Ho. injection Ho as <-. specialize (P' _ eq_refl).
        rewrite G4 in P'.
        exact (sp_seq E s col _ _ _ g1 g2 merge (ctx_mark c) pos (ok_val o1) (ok_pos o1) (PExn e) w w1 w2 P P').
      * split; [apply spost_none|discriminate].
    + specialize (P _ eq_refl). cbn in P |- *. split; [apply spost_err|]. intros o Ho. injection Ho as <-.
      apply sp_seq_fail; auto.
    + specialize (P _ eq_refl). cbn in P |- *. split; [apply spost_raise|]. intros o Ho. injection Ho as <-.
      apply sp_seq_exn; auto.
    + cbn. split; [apply spost_none|discriminate].
  - (* maybe *) destruct Hg as [_ Hg]. destruct (IH _ g pos c w Hg Hpos Hc) as [G P].
    unfold maybe_sf, sbind. destruct (sfast E n g s pos c w) as [w1 [[o1|e]|e|]]; cbn [fst snd] in G, P.
    + specialize (P _ eq_refl). cbn in P |- *. split.
      * intros o Ho. injection Ho as <-. exact (G o1 eq_refl).
      * intros o Ho. injection Ho as <-. apply sp_maybe; auto.
    + specialize (P _ eq_refl). cbn in P. destruct (er_con e) eqn:He; cbn.
      * split; [apply spost_err|]. cbn. rewrite He. intros o Ho. injection Ho as <-. apply sp_maybe_fail; auto.
      * split; [apply spost_here; auto|]. intros o Ho. injection Ho as <-. apply sp_maybe_none; auto.
    + specialize (P _ eq_refl). cbn. split; [apply spost_raise|]. intros o Ho. injection Ho as <-.
      apply sp_maybe_exn; auto.
    + cbn. split; [apply spost_none|discriminate].
  - (* many *) destruct Hg as [_ Hg]. apply many_sgood; auto.
  - (* attempt *) destruct Hg as [_ Hg]. destruct (IH _ g pos c w Hg Hpos Hc) as [G P].
    unfold attempt_sf, sbind. destruct (sfast E n g s pos c w) as [w1 [[o1|e]|e|]]; cbn [fst snd] in G, P.
    + specialize (P _ eq_refl). cbn in P |- *. split; [exact G|]. intros o Ho. injection Ho as <-.
      apply sp_attempt; auto.
    + specialize (P _ eq_refl). cbn in P |- *. split; [apply spost_err|]. intros o Ho. injection Ho as <-.
      eapply sp_attempt_fail; eauto.
    + specialize (P _ eq_refl). cbn. split; [apply spost_raise|]. intros o Ho. injection Ho as <-.
      apply sp_attempt_exn; auto.
    + cbn. split; [apply spost_none|discriminate].
  - (* label *) destruct Hg as [_ Hg]. destruct (IH _ g pos c w Hg Hpos Hc) as [G P].
    unfold label_sf, sbind. destruct (sfast E n g s pos c w) as [w1 [r|e|]]; unfold slift; cbn [fst snd] in *.
    + split; cbn [fst snd]; [apply spost_set_exp; auto|]. rewrite abs_set_exp. intros o Ho. apply sp_label. auto.
    + split; [apply spost_raise|]. intros o Ho. apply sp_label. auto.
    + split; [apply spost_none|discriminate].
  - destruct Hg as [_ Hg]. destruct (IH _ g pos c w Hg Hpos Hc) as [G P]. split; [exact G|].
    intros o Ho. apply sp_recover. auto.
  - destruct Hg as [_ Hg]. destruct (IH _ g pos c w Hg Hpos Hc) as [G P]. split; [exact G|].
    intros o Ho. apply sp_with. auto.
  - destruct Hg as [_ Hg]. destruct (IH _ g pos c w Hg Hpos Hc) as [G P]. split; [exact G|].
    intros o Ho. apply sp_withfn. auto.
  - (* block *) destruct Hg as [_ Hg]. unfold block_sf. cbv zeta. specialize (Hcol I).
    set (c1 := update_loc c s pos) in *.
    assert (Hc1 : Cok pos (set_mark c1 (loc_col (ctx_loc c1)))) by (apply (cs_mark _ _ _ _ _ CS), Hcu; lia).
    destruct (IH _ g pos _ w Hg Hpos Hc1) as [G P]. unfold sbind.
    destruct (sfast E n g s pos (set_mark c1 (loc_col (ctx_loc c1))) w) as [w1 [r|e|]]; unfold slift; cbn [fst snd] in *.
    + split; cbn [fst snd]; [eapply spost_set_ctx; eauto|]. rewrite abs_set_ctx. intros o Ho.
      apply sp_block. rewrite <- Hcol. apply P. exact Ho.
    + split; [apply spost_raise|]. intros o Ho. apply sp_block. rewrite <- Hcol. apply P. exact Ho.
    + split; [apply spost_none|discriminate].
  - (* aligned *) destruct Hg as [_ Hg]. unfold aligned_sf. cbv zeta. specialize (Hcol I).
    rewrite upd_mark', Hcol. destruct (Z.eqb_spec (ctx_mark c) (col pos)) as [He|He].
    + destruct (IH _ g pos _ w Hg Hpos (Hcu pos ltac:(lia))) as [G P]. split.
      * intros o Ho. rewrite <- (upd_mark' s c pos). exact (G o Ho).
      * intros o Ho. apply sp_aligned; auto. rewrite <- (upd_mark' s c pos). apply P. exact Ho.
    + cbn. split; [apply spost_err|]. intros o Ho. injection Ho as <-. apply sp_aligned_no. auto.
  - (* indented *) destruct Hg as [_ Hg]. unfold indented_sf. cbv zeta. specialize (Hcol I).
    rewrite upd_mark', Hcol. destruct (Z.eqb_spec (ctx_mark c + delta) (col pos)) as [He|He].
    + assert (Hc1 : Cok pos (set_mark (update_loc c s pos) (col pos))) by (apply (cs_mark _ _ _ _ _ CS), Hcu; lia).
      destruct (IH _ g pos _ w Hg Hpos Hc1) as [G P]. unfold sbind.
      destruct (sfast E n g s pos (set_mark (update_loc c s pos) (col pos)) w) as [w1 [r|e|]]; unfold slift; cbn [fst snd] in *.
      * split; cbn [fst snd]; [eapply spost_set_ctx; eauto|]. rewrite abs_set_ctx. intros o Ho.
        apply sp_indented; auto.
      * split; [apply spost_raise|]. intros o Ho. apply sp_indented; auto.
      * split; [apply spost_none|discriminate].
    + cbn. split; [apply spost_err|]. intros o Ho. injection Ho as <-. apply sp_indented_no. auto.
  - destruct (IH _ (E d) pos c w (HE d) Hpos Hc) as [G P]. split; [exact G|].
    intros o Ho. apply sp_delay. auto.
  - cbn. split; [apply spost_raise|]. intros o Ho. injection Ho as <-. apply sp_undef.
Qed.

(** ** Completeness *)
Definition sreach {A} (g : sgram St T V A) pos c w o w' : Prop :=
  exists n x, sfast E n g s pos c w = (w', x) /\ abs x = Some o.

Lemma sfast_mono n m A (g : sgram St T V A) pos c w w' x :
  sfast E n g s pos c w = (w', x) -> x <> NoFuel -> n <= m -> sfast E m g s pos c w = (w', x).
Proof.
  intros H Hx Hm. destruct (sfast_lef E n m Hm A g s pos c w) as [K|K]; rewrite H in K; [|auto].
  cbn in K. congruence.
Qed.
Lemma sreach_any A (g : sgram St T V A) pos c w o w' : sreach g pos c w o w' ->
  exists n x, (forall m, n <= m -> sfast E m g s pos c w = (w', x)) /\ abs x = Some o.
Proof.
  intros (n & x & H & Hx). exists n, x. split; auto.
  intros m Hm. eapply sfast_mono; eauto. intros K. subst x. discriminate.
Qed.
Lemma sreach_succ A (g : sgram St T V A) pos c w v j w' : sgok g -> pos <= len -> Cok pos c ->
  sreach g pos c w (PSucc v j) w' ->
  exists n o, (forall m, n <= m -> sfast E m g s pos c w = (w', Ret (SOk o))) /\
    ok_val o = v /\ ok_pos o = j /\ pos <= j <= len /\ ok_con o = Nat.ltb pos j /\
    Cok j (ok_ctx o) /\ ctx_mark (ok_ctx o) = ctx_mark c.
Proof.
  intros Hg Hp Hc H. apply sreach_any in H as (n & x & H & Hx). apply abs_succ in Hx as (o & -> & H1 & H2).
  destruct (speg_sound n A g pos c w Hg Hp Hc) as [G _]. rewrite (H n) in G by auto.
  destruct (G o eq_refl) as (G1 & G2 & G3 & G4). subst v j. exists n, o. auto 10.
Qed.
Lemma sreach_fail A (g : sgram St T V A) pos c w b w' : sreach g pos c w (PFail b) w' ->
  exists n e, (forall m, n <= m -> sfast E m g s pos c w = (w', Ret (SErr e))) /\ er_con e = b.
Proof.
  intros H. apply sreach_any in H as (n & x & H & Hx). apply abs_fail in Hx as (e & -> & H1). eauto.
Qed.
Lemma sreach_exn A (g : sgram St T V A) pos c w e w' : sreach g pos c w (PExn e) w' ->
  exists n, forall m, n <= m -> sfast E m g s pos c w = (w', Raise e).
Proof.
  intros H. apply sreach_any in H as (n & x & H & Hx). apply abs_exn in Hx. subst x. eauto.
Qed.

Lemma sfast_many A (p : sgram St T V A) n pos c :
  sfast E (S n) (XMany p) s pos c = many_sf (sfast E n p) n false [] s pos c.
Proof. reflexivity. Qed.
Lemma many_sf_S A (p : psf St T A) n con v pos c w :
  many_sf p (S n) con v s pos c w =
  match p s pos c w with
  | (w', Ret (SOk o)) =>
      if ok_con o then many_sf p n true (v ++ [ok_val o]) s (ok_pos o) (ok_ctx o) w'
      else (w', Raise ManyEmpty)
  | (w', Ret (SErr e)) =>
      if er_con e then (w', Ret (SErr e)) else (w', Ret (SOk (Ok v pos c (er_exp e) con)))
  | (w', Raise e) => (w', Raise e)
  | (w', NoFuel) => (w', NoFuel)
  end.
Proof.
  cbn [many_sf]. unfold sbind. destruct (p s pos c w) as [w' [[o|e]|e|]]; try reflexivity.
  - destruct (ok_con o); reflexivity.
  - destruct (er_con e); reflexivity.
Qed.

Theorem speg_complete A (g : sgram St T V A) m i w o w' :
  speg E s col A g m i w o w' -> sgok g -> i <= len ->
  forall c, Cok i c -> ctx_mark c = m -> sreach g i c w o w'.
Proof.
  induction 1; intros Hg Hi c Hc Hm; pose proof Hg as Hg0; simpl in Hg0.
  - exists 1. eexists. split; reflexivity.
  - exists 1. eexists. cbn. unfold purefn_sf, sbind. rewrite H. split; reflexivity.
  - exists 1. eexists. cbn. unfold purefn_sf, sbind. rewrite H. split; reflexivity.
  - exists 1. eexists. split; reflexivity.
  - exists 1. eexists. cbn. unfold slift, eof_fast. rewrite Nat.eqb_refl. split; reflexivity.
  - exists 1. eexists. cbn. unfold slift, eof_fast.
    destruct (Nat.eqb_spec i (List.length s)); [contradiction|]. split; reflexivity.
  - exists 1. eexists. cbn. unfold satisfy_sf, probe_tok_st, sbind. rewrite H, H0. split; reflexivity.
  - exists 1. eexists. cbn. unfold satisfy_sf, probe_tok_st, sbind. rewrite H, H0. split; reflexivity.
  - exists 1. eexists. cbn. unfold satisfy_sf, probe_tok_st, sbind. rewrite H. split; reflexivity.
  - exists 1. eexists. cbn. unfold satisfy_sf, probe_tok_st, sbind. rewrite H, H0. split; reflexivity.
  - exists 1. eexists. cbn. unfold slift, sym_fast, probe_sym. rewrite H. cbn. rewrite H0. split; reflexivity.
  - exists 1. eexists. cbn. unfold slift, sym_fast, probe_sym.
    destruct (nth_error s i) as [t|] eqn:Hn; [cbn; rewrite (H t eq_refl)|]; split; reflexivity.
  - exists 1. eexists. cbn. unfold slift, literal_fast.
    change (starts_with teq x s i) with (stands_at teq x s i). rewrite H. split; reflexivity.
  - exists 1. eexists. cbn. unfold slift, literal_fast.
    change (starts_with teq x s i) with (stands_at teq x s i). rewrite H. split; reflexivity.
  - exists 1. eexists. cbn. unfold slift, regexp_fast, probe_re. rewrite H. split; reflexivity.
  - exists 1. eexists. cbn. unfold slift, regexp_fast, probe_re.
    destruct (re s i) as [[e [v|]]|] eqn:Hr; try (split; reflexivity).
    exfalso. apply H. exists e, v. auto.
  - (* fmap *) destruct (sreach_succ _ _ _ _ _ _ _ _ (proj2 Hg0) Hi Hc (IHspeg (proj2 Hg0) Hi c Hc Hm))
      as (n & o & Hn & Hv & Hj & _).
    exists (S n). eexists. cbn [sfast]. unfold fmap_sf, sbind. rewrite Hn by auto. cbn. unfold ok_fmap_st, sbind.
    rewrite Hv, H0. cbn. split; [reflexivity|]. cbn. congruence.
  - destruct (sreach_succ _ _ _ _ _ _ _ _ (proj2 Hg0) Hi Hc (IHspeg (proj2 Hg0) Hi c Hc Hm))
      as (n & o & Hn & Hv & Hj & _).
    exists (S n). eexists. cbn [sfast]. unfold fmap_sf, sbind. rewrite Hn by auto. cbn. unfold ok_fmap_st, sbind.
    rewrite Hv, H0. split; reflexivity.
  - destruct (sreach_fail _ _ _ _ _ _ _ (IHspeg (proj2 Hg0) Hi c Hc Hm)) as (n & e & Hn & He).
    exists (S n). eexists. cbn [sfast]. unfold fmap_sf, sbind. rewrite Hn by auto.
    split; [reflexivity|]. cbn. congruence.
  - destruct (sreach_exn _ _ _ _ _ _ _ (IHspeg (proj2 Hg0) Hi c Hc Hm)) as (n & Hn).
    exists (S n). eexists. cbn [sfast]. unfold fmap_sf, sbind. rewrite Hn by auto. split; reflexivity.
  - (* alt *) destruct (sreach_succ _ _ _ _ _ _ _ _ (proj1 (proj2 Hg0)) Hi Hc
      (IHspeg (proj1 (proj2 Hg0)) Hi c Hc Hm)) as (n & o & Hn & Hv & Hj & _).
    exists (S n). eexists. cbn [sfast]. unfold alt_sf, sbind. rewrite Hn by auto.
    split; [reflexivity|]. cbn. congruence.
  - destruct (sreach_fail _ _ _ _ _ _ _ (IHspeg (proj1 (proj2 Hg0)) Hi c Hc Hm)) as (n & e & Hn & He).
    exists (S n). eexists. cbn [sfast]. unfold alt_sf, sbind. rewrite Hn by auto. rewrite He.
    split; [reflexivity|]. cbn. congruence.
  - destruct (sreach_exn _ _ _ _ _ _ _ (IHspeg (proj1 (proj2 Hg0)) Hi c Hc Hm)) as (n & Hn).
    exists (S n). eexists. cbn [sfast]. unfold alt_sf, sbind. rewrite Hn by auto. split; reflexivity.
  - destruct (sreach_fail _ _ _ _ _ _ _ (IHspeg1 (proj1 (proj2 Hg0)) Hi c Hc Hm)) as (n & e & Hn & He).
    destruct (sreach_any _ _ _ _ _ _ _ (IHspeg2 (proj2 (proj2 Hg0)) Hi c Hc Hm)) as (n2 & x & Hn2 & Hx).
    exists (S (n + n2)). cbn [sfast]. unfold alt_sf, sbind. rewrite Hn by lia. rewrite He. rewrite Hn2 by lia.
    destruct x as [[o2|e2]|e2|]; cbn in Hx |- *; [| | |discriminate].
    + destruct (ok_con o2) eqn:H2.
      * eexists. split; [reflexivity|exact Hx].
      * eexists. split; [reflexivity|]. unfold ok_set_exp. rewrite H2. exact Hx.
    + destruct (er_con e2) eqn:H2; eexists; (split; [reflexivity|]); cbn; rewrite ?H2; exact Hx.
    + eexists. split; [reflexivity|exact Hx].
  - (* bind *) destruct (sreach_succ _ _ _ _ _ _ _ _ (proj1 (proj2 Hg0)) Hi Hc
      (IHspeg1 (proj1 (proj2 Hg0)) Hi c Hc Hm)) as (n & o1 & Hn & Hv & Hj & Hb & Hcon & Hc' & Hm').
    pose proof (proj2 (proj2 Hg0) v w1) as Hq. rewrite H0 in Hq.
    destruct (sreach_any _ _ _ _ _ _ _ (IHspeg2 Hq (proj2 Hb) (ok_ctx o1) Hc'
      ltac:(congruence))) as (n2 & x & Hn2 & Hx).
    exists (S (n + n2)). cbn [sfast]. unfold bind_sf, sbind. rewrite Hn by lia.
    rewrite Hv, H0, Hj, Hn2 by lia.
    destruct x as [r|e2|]; [|cbn in Hx; injection Hx as <-; eexists; split; reflexivity|discriminate].
    eexists. split; [reflexivity|]. rewrite abs_prepend, Hx, Hcon. destruct o; reflexivity.
  - destruct (sreach_succ _ _ _ _ _ _ _ _ (proj1 (proj2 Hg0)) Hi Hc
      (IHspeg (proj1 (proj2 Hg0)) Hi c Hc Hm)) as (n & o1 & Hn & Hv & _).
    exists (S n). eexists. cbn [sfast]. unfold bind_sf, sbind. rewrite Hn by lia. rewrite Hv, H0. split; reflexivity.
  - destruct (sreach_fail _ _ _ _ _ _ _ (IHspeg (proj1 (proj2 Hg0)) Hi c Hc Hm)) as (n & e & Hn & He).
    exists (S n). eexists. cbn [sfast]. unfold bind_sf, sbind. rewrite Hn by auto.
    split; [reflexivity|]. cbn. congruence.
  - destruct (sreach_exn _ _ _ _ _ _ _ (IHspeg (proj1 (proj2 Hg0)) Hi c Hc Hm)) as (n & Hn).
    exists (S n). eexists. cbn [sfast]. unfold bind_sf, sbind. rewrite Hn by auto. split; reflexivity.
  - (* seq *) destruct (sreach_succ _ _ _ _ _ _ _ _ (proj1 (proj2 Hg0)) Hi Hc
      (IHspeg1 (proj1 (proj2 Hg0)) Hi c Hc Hm)) as (n & o1 & Hn & Hv & Hj & Hb & Hcon & Hc' & Hm').
    destruct (sreach_any _ _ _ _ _ _ _ (IHspeg2 (proj2 (proj2 Hg0)) (proj2 Hb) (ok_ctx o1) Hc'
      ltac:(congruence))) as (n2 & x & Hn2 & Hx).
    exists (S (n + n2)). cbn [sfast]. unfold seq_sf, sbind. rewrite Hn by lia.
    cbv zeta. rewrite Hv, Hj, Hn2 by lia.
    destruct x as [[o2|e2]|e2|]; cbn [obind sres_fmap ok_fmap]; try discriminate;
      unfold slift; eexists; (split; [reflexivity|]);
      cbn [obind]; rewrite ?abs_prepend; cbn in Hx |- *; injection Hx as <-; cbn; rewrite ?Hcon; reflexivity.
  - destruct (sreach_fail _ _ _ _ _ _ _ (IHspeg (proj1 (proj2 Hg0)) Hi c Hc Hm)) as (n & e & Hn & He).
    exists (S n). eexists. cbn [sfast]. unfold seq_sf, sbind. rewrite Hn by auto.
    split; [reflexivity|]. cbn. congruence.
  - destruct (sreach_exn _ _ _ _ _ _ _ (IHspeg (proj1 (proj2 Hg0)) Hi c Hc Hm)) as (n & Hn).
    exists (S n). eexists. cbn [sfast]. unfold seq_sf, sbind. rewrite Hn by auto. split; reflexivity.
  - (* maybe *) destruct (sreach_succ _ _ _ _ _ _ _ _ (proj2 Hg0) Hi Hc (IHspeg (proj2 Hg0) Hi c Hc Hm))
      as (n & o & Hn & Hv & Hj & _).
    exists (S n). eexists. cbn [sfast]. unfold maybe_sf, sbind. rewrite Hn by auto.
    split; [reflexivity|]. cbn. congruence.
  - destruct (sreach_fail _ _ _ _ _ _ _ (IHspeg (proj2 Hg0) Hi c Hc Hm)) as (n & e & Hn & He).
    exists (S n). eexists. cbn [sfast]. unfold maybe_sf, sbind. rewrite Hn by auto. rewrite He. split; reflexivity.
  - destruct (sreach_fail _ _ _ _ _ _ _ (IHspeg (proj2 Hg0) Hi c Hc Hm)) as (n & e & Hn & He).
    exists (S n). eexists. cbn [sfast]. unfold maybe_sf, sbind. rewrite Hn by auto. rewrite He.
    split; [reflexivity|]. cbn. congruence.
  - destruct (sreach_exn _ _ _ _ _ _ _ (IHspeg (proj2 Hg0) Hi c Hc Hm)) as (n & Hn).
    exists (S n). eexists. cbn [sfast]. unfold maybe_sf, sbind. rewrite Hn by auto. split; reflexivity.
  - (* many more *) destruct (sreach_succ _ _ _ _ _ _ _ _ (proj2 Hg0) Hi Hc (IHspeg1 (proj2 Hg0) Hi c Hc Hm))
      as (n & o1 & Hn & Hv & Hj & Hb & Hcon & Hc' & Hm').
    destruct (sreach_any _ _ _ _ _ _ _ (IHspeg2 Hg (proj2 Hb) (ok_ctx o1) Hc' ltac:(congruence)))
      as (n2 & x & Hn2 & Hx).
    pose (N := n + n2). exists (S (S N)). rewrite sfast_many, many_sf_S, Hn by lia.
    assert (Hlt : Nat.ltb i j = true) by (apply Nat.ltb_lt; auto). rewrite Hcon, Hlt, Hj, Hv.
    rewrite many_sf_acc.
    assert (K : many_sf (sfast E (S N) p) N false [] s j (ok_ctx o1) w1 = (w2, x)).
    { pose proof (Hn2 (S N) ltac:(lia)) as H2. rewrite sfast_many in H2.
      destruct (slef_many_f (sfast E N p) (sfast E (S N) p) N N s
        ltac:(intros; apply sfast_lef; lia) (le_n N) false [] j (ok_ctx o1) w1) as [K|K]; [|congruence].
      rewrite H2 in K. cbn in K. subst x. discriminate. }
    rewrite K. cbn [fst snd]. eexists. split; [reflexivity|].
    destruct x as [[o2|e2]|e2|]; cbn in Hx |- *; try discriminate; injection Hx as <-; reflexivity.
  - destruct (sreach_succ _ _ _ _ _ _ _ _ (proj2 Hg0) Hi Hc (IHspeg (proj2 Hg0) Hi c Hc Hm))
      as (n & o1 & Hn & Hv & Hj & Hb & Hcon & _).
    exists (S (S n)). rewrite sfast_many, many_sf_S, Hn by auto. rewrite Hcon, Nat.ltb_irrefl.
    eexists. split; reflexivity.
  - destruct (sreach_fail _ _ _ _ _ _ _ (IHspeg (proj2 Hg0) Hi c Hc Hm)) as (n & e & Hn & He).
    exists (S (S n)). rewrite sfast_many, many_sf_S, Hn by auto. rewrite He. eexists. split; reflexivity.
  - destruct (sreach_fail _ _ _ _ _ _ _ (IHspeg (proj2 Hg0) Hi c Hc Hm)) as (n & e & Hn & He).
    exists (S (S n)). rewrite sfast_many, many_sf_S, Hn by auto. rewrite He.
    eexists. split; [reflexivity|]. cbn. congruence.
  - destruct (sreach_exn _ _ _ _ _ _ _ (IHspeg (proj2 Hg0) Hi c Hc Hm)) as (n & Hn).
    exists (S (S n)). rewrite sfast_many, many_sf_S, Hn by auto. eexists. split; reflexivity.
  - (* attempt *) destruct (sreach_succ _ _ _ _ _ _ _ _ (proj2 Hg0) Hi Hc (IHspeg (proj2 Hg0) Hi c Hc Hm))
      as (n & o & Hn & Hv & Hj & _).
    exists (S n). eexists. cbn [sfast]. unfold attempt_sf, sbind. rewrite Hn by auto.
    split; [reflexivity|]. cbn. congruence.
  - destruct (sreach_fail _ _ _ _ _ _ _ (IHspeg (proj2 Hg0) Hi c Hc Hm)) as (n & e & Hn & He).
    exists (S n). eexists. cbn [sfast]. unfold attempt_sf, sbind. rewrite Hn by auto. split; reflexivity.
  - destruct (sreach_exn _ _ _ _ _ _ _ (IHspeg (proj2 Hg0) Hi c Hc Hm)) as (n & Hn).
    exists (S n). eexists. cbn [sfast]. unfold attempt_sf, sbind. rewrite Hn by auto. split; reflexivity.
  - (* label *) destruct (IHspeg (proj2 Hg0) Hi c Hc Hm) as (n & y & Hn & Hx).
    exists (S n). cbn [sfast]. unfold label_sf, sbind. rewrite Hn.
    destruct y as [r|e|]; unfold slift; eexists; (split; [reflexivity|]); [rewrite abs_set_exp|..]; exact Hx.
  - destruct (IHspeg (proj2 Hg0) Hi c Hc Hm) as (n & y & Hn & Hx). exists (S n), y. auto.
  - destruct (IHspeg (proj2 Hg0) Hi c Hc Hm) as (n & y & Hn & Hx). exists (S n), y. auto.
  - destruct (IHspeg (proj2 Hg0) Hi c Hc Hm) as (n & y & Hn & Hx). exists (S n), y. auto.
  - (* block *)
    destruct (cs_col _ _ _ _ _ CS i c (proj2 (sall_node _ _ _ Hg) I) Hc Hi) as [_ Hcl]. red in Hcl.
    pose proof (cs_upd _ _ _ _ _ CS i i c Hc ltac:(unfold len in *; lia)) as Hcu.
    destruct (IHspeg (proj2 Hg0) Hi (set_mark (update_loc c s i) (col i))
      (cs_mark _ _ _ _ _ CS _ _ _ Hcu) eq_refl) as (n & y & Hn & Hx).
    exists (S n). cbn [sfast]. unfold block_sf. cbv zeta. rewrite Hcl.
    change (loc_col (locof i)) with (col i). unfold sbind. rewrite Hn.
    destruct y as [r|e|]; unfold slift; eexists; (split; [reflexivity|]); [rewrite abs_set_ctx|..]; exact Hx.
  - (* aligned *)
    destruct (cs_col _ _ _ _ _ CS i c (proj2 (sall_node _ _ _ Hg) I) Hc Hi) as [_ Hcl]. red in Hcl.
    pose proof (cs_upd _ _ _ _ _ CS i i c Hc ltac:(unfold len in *; lia)) as Hcu.
    destruct (IHspeg (proj2 Hg0) Hi (update_loc c s i) Hcu ltac:(rewrite upd_mark'; auto)) as (n & y & Hn & Hx).
    exists (S n), y. cbn [sfast]. unfold aligned_sf. cbv zeta. rewrite Hcl, upd_mark'.
    change (loc_col (locof i)) with (col i). rewrite Hm, H, Z.eqb_refl. auto.
  - destruct (cs_col _ _ _ _ _ CS i c (proj2 (sall_node _ _ _ Hg) I) Hc Hi) as [_ Hcl]. red in Hcl.
    exists 1. eexists. cbn [sfast]. unfold aligned_sf. cbv zeta. rewrite Hcl, upd_mark'.
    change (loc_col (locof i)) with (col i).
    destruct (Z.eqb_spec (ctx_mark c) (col i)); [congruence|split; reflexivity].
  - (* indented *)
    destruct (cs_col _ _ _ _ _ CS i c (proj2 (sall_node _ _ _ Hg) I) Hc Hi) as [_ Hcl]. red in Hcl.
    pose proof (cs_upd _ _ _ _ _ CS i i c Hc ltac:(unfold len in *; lia)) as Hcu.
    destruct (IHspeg (proj2 Hg0) Hi (set_mark (update_loc c s i) (col i))
      (cs_mark _ _ _ _ _ CS _ _ _ Hcu) eq_refl) as (n & y & Hn & Hx).
    exists (S n). cbn [sfast]. unfold indented_sf. cbv zeta. rewrite Hcl, upd_mark'.
    change (loc_col (locof i)) with (col i). rewrite Hm, <- H, Z.eqb_refl. unfold sbind. rewrite Hn.
    destruct y as [r|e|]; unfold slift; eexists; (split; [reflexivity|]); [rewrite abs_set_ctx|..]; exact Hx.
  - destruct (cs_col _ _ _ _ _ CS i c (proj2 (sall_node _ _ _ Hg) I) Hc Hi) as [_ Hcl]. red in Hcl.
    exists 1. eexists. cbn [sfast]. unfold indented_sf. cbv zeta. rewrite Hcl, upd_mark'.
    change (loc_col (locof i)) with (col i).
    destruct (Z.eqb_spec (ctx_mark c + delta) (col i)); [congruence|split; reflexivity].
  - (* delay *) destruct (IHspeg (HE d) Hi c Hc Hm) as (n & y & Hn & Hx). exists (S n), y. auto.
  - exists 1. eexists. split; reflexivity.
Qed.

End StatefulPeg.
