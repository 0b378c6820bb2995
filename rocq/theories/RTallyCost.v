(** The counted recovering interpreters count what the rules of [RTallySpec.v] say. *)
From Verif Require Export RTallySpec TallyCost CostFullProofs DepthFullProofs RecProofs.
From Coq Require Import Lia.

Section CostRTally.
Context {T : Type} {V : nat -> Type}.
Variable E : env T V.
Variable s : list T.
Variable get : loc -> list T -> nat -> loc.
Variable locof : nat -> loc.
Variable lay : Prop.
Hypothesis Hco : cohere get s locof.
Hypothesis Hlay : lay -> exactpos s locof.
Hypothesis HE : forall d, gok lay (E d).
Let CS := pos_system s get locof lay Hco Hlay.
Let Cok := pos_Cok (T:=T) get locof.
Let len := List.length s.
Notation rtl := (rtally Nat.add E s locof).
Notation rtls := (rtallies Nat.add E s locof).
Notation grep m := (RecProofs.goodrep s get locof m).

Lemma rpart n A (g : gram T V A) pos c ins rem x : gok lay g -> pos <= len -> Cok pos c ->
  snd (cfull E n g s pos c ins rem) = x ->
  forall o, rabs x = Some o -> rsem E s locof A g (ctx_mark c) pos ins rem o.
Proof using Hco Hlay HE.
  intros Hg Hp Hc <- o H. rewrite cfull_full in H. eapply (rec_sound E s get locof lay Hco Hlay HE n); eauto.
Qed.
Lemma rgood n A (g : gram T V A) pos c ins rem r : gok lay g -> pos <= len -> Cok pos c ->
  snd (cfull E n g s pos c ins rem) = Ret r ->
  match r with
  | ROk o => pos <= ok_pos o <= len /\ ok_con o = Nat.ltb pos (ok_pos o) /\
      Cok (ok_pos o) (ok_ctx o) /\ ctx_mark (ok_ctx o) = ctx_mark c
  | RErr _ => True
  | RRec rc => Forall (grep (ctx_mark c)) (rc_reps rc)
  end.
Proof using Hco Hlay HE.
  intros Hg Hp Hc H. rewrite cfull_full in H. eapply (fgood E s get locof lay Hco Hlay HE); eauto.
Qed.

Lemma cconts A B C (k : A -> gram T V B) (merge : A -> B -> C) m ins (F : A -> nat -> ctx T -> Z -> cm (res T B)) :
  (forall v pos c left, pos <= len -> Cok pos c -> ctx_mark c = m -> cends (F v pos c left) ->
     rtl B (k v) m pos ins (Some left) (fst (F v pos c left))) ->
  (forall v pos c left o, pos <= len -> Cok pos c -> ctx_mark c = m ->
     rabs (snd (F v pos c left)) = Some o -> rsem E s locof B (k v) m pos ins (Some left) o) ->
  forall reps, Forall (grep m) reps -> cends (cflat_map (cont_one_cost ins F merge) reps) ->
  rtls A B k m ins (map off reps) (fst (cflat_map (cont_one_cost ins F merge) reps)).
Proof using.
  intros HT HS reps. induction reps as [|r reps IH]; intros HG H; cbn [cflat_map map] in *.
  { apply rts_nil. }
  inversion HG as [|? ? (G1 & G2 & G3) HG']; subst. specialize (IH HG').
  pose proof (cends_l _ _ _ _ H) as H1. pose proof (cends_l _ _ _ _ H1) as H2.
  specialize (HT (r_val r) (r_pos r) (r_ctx r) (r_ins r) G1 G2 eq_refl H2).
  pose proof (fun o => HS (r_val r) (r_pos r) (r_ctx r) (r_ins r) o G1 G2 eq_refl) as K.
  change (r_val r) with (f_val (off r)) in HT at 1. change (r_pos r) with (f_pos (off r)) in HT at 1.
  change (r_ins r) with (f_left (off r)) in HT at 1.
  unfold cends in H. 
  destruct (snd (F (r_val r) (r_pos r) (r_ctx r) (r_ins r))) as [rb|e|] eqn:Q.
  - specialize (K _ eq_refl).
    assert (Q1 : exists l, snd (cont_one_cost ins F merge r) = Ret l /\
      fst (cont_one_cost ins F merge r) = fst (F (r_val r) (r_pos r) (r_ctx r) (r_ins r))).
    { unfold cont_one_cost. rewrite (cbind_ret _ _ _ _ _ Q). destruct rb; cbn [fst snd cret]; rewrite Nat.add_0_r; eauto. }
    destruct Q1 as (l & Q1 & Q2).
    rewrite (cbind_ret _ _ _ _ _ Q1) in *. cbn [fst snd] in *. rewrite cone, Q2.
    eapply rts_more; [exact K|intros [e K']; destruct rb; discriminate|exact HT|].
    apply IH. eapply cends_l. exact H.
  - specialize (K _ eq_refl).
    assert (Q1 : cont_one_cost ins F merge r = (fst (F (r_val r) (r_pos r) (r_ctx r) (r_ins r)), Raise e))
      by (unfold cont_one_cost; apply cbind_exn; exact Q).
    rewrite Q1. unfold cbind at 1. cbn [fst snd]. eapply rts_exn; [exact K|eexists; reflexivity|exact HT].
  - exfalso. apply H2. exact Q.
Qed.
Lemma ccont_fst A B C (rc : recr T A) ins (F : A -> nat -> ctx T -> Z -> cm (res T B)) (merge : A -> B -> C) :
  fst (continue_cost rc ins F merge) = fst (cflat_map (cont_one_cost ins F merge) (rc_reps rc)).
Proof using. unfold continue_cost. apply cone. Qed.

Lemma cmanyr A (p : gram T V A) N : gok lay p ->
  (forall pos c ins, pos <= len -> Cok pos c -> cends (cfull E N p s pos c ins None) ->
     rtl A p (ctx_mark c) pos ins None (fst (cfull E N p s pos c ins None))) ->
  forall n con vs pos c ins rem, pos <= len -> Cok pos c -> cends (many_costr (cfull E N p) n con vs s pos c ins) ->
  rtl _ (GMany p) (ctx_mark c) pos ins rem (S (fst (many_costr (cfull E N p) n con vs s pos c ins))).
Proof using Hco Hlay HE.
  intros Hg HF n. induction n as [|n IH]; intros con vs pos c ins rem Hp Hc H; [exfalso; apply H; reflexivity|].
  cbn [many_costr] in *. pose proof (HF _ _ _ Hp Hc (cends_l _ _ _ _ H)) as HT.
  destruct (snd (cfull E N p s pos c ins None)) as [[o|e|rc]|e|] eqn:Q.
  - pose proof (rpart _ _ _ _ _ _ _ _ Hg Hp Hc Q _ eq_refl) as D. cbn [rab] in D.
    destruct (rgood _ _ _ _ _ _ _ _ Hg Hp Hc Q) as (G1 & G2 & G3 & G4).
    unfold cends in H. rewrite (cbind_ret _ _ _ _ _ Q) in *. cbn [fst snd] in *. destruct (ok_con o).
    + symmetry in G2. apply Nat.ltb_lt in G2. eapply rt_many_more; eauto.
      rewrite <- G4. apply IH; [lia|exact G3|exact H].
    + cbn [cret fst]. rewrite ?Nat.add_0_r, ?Nat.max_0_r. eapply rt_many_last; [exact D| |exact HT].
      right. symmetry in G2. apply Nat.ltb_ge in G2. replace (ok_pos o) with pos by lia. eauto.
  - pose proof (rpart _ _ _ _ _ _ _ _ Hg Hp Hc Q _ eq_refl) as D. rewrite (cbind_ret _ _ _ _ _ Q). cbn [fst snd].
    cbn [rab] in D. destruct (er_con e); cbn [fst cret]; rewrite ?Nat.add_0_r, ?Nat.max_0_r;
      (eapply rt_many_last; [exact D| |exact HT]; left; left; eauto).
  - pose proof (rpart _ _ _ _ _ _ _ _ Hg Hp Hc Q _ eq_refl) as D. cbn [rab] in D.
    pose proof (rgood _ _ _ _ _ _ _ _ Hg Hp Hc Q) as G. cbn [rc_reps] in G.
    unfold cends in H. rewrite (cbind_ret _ _ _ _ _ Q) in *. cbn [fst snd] in *.
    rewrite ccont_fst. eapply rt_many_repairs; [exact D|exact HT|].
    apply cconts; auto.
    + intros v pos' c' left Hp' Hc' <- H'. cbn [tick fst snd] in *. apply IH; auto.
    + intros v pos' c' left o Hp' Hc' <- H'. cbn [tick fst snd] in *.
      rewrite (manyr_erases _ (full E N p)) in H' by (intros ? ? ? ? ?; apply cfull_full).
      eapply (many_rsound E s get locof lay A p (full E N p)); eauto.
      * intros pos2 c2 ins2 o2 K1 K2 K3. eapply (rec_sound E s get locof lay Hco Hlay HE N); eauto.
      * intros pos2 c2 ins2 r2 K1 K2 K3. eapply (fgood E s get locof lay Hco Hlay HE); eauto.
    + eapply cends_l. exact H.
  - pose proof (rpart _ _ _ _ _ _ _ _ Hg Hp Hc Q _ eq_refl) as D. rewrite (cbind_exn _ _ _ _ _ Q). cbn [fst snd].
    eapply rt_many_last; [exact D| |exact HT]. left. right. eexists. reflexivity.
  - exfalso. apply H. unfold cbind. rewrite Q. reflexivity.
Qed.
Lemma ropen n A (g : gram T V A) pos c ins rc :
  snd (cfull E n g s pos c ins None) = Ret (RRec rc) -> rc_con rc = true.
Proof using. intros H. rewrite cfull_full in H. eapply none_open. exact H. Qed.

Definition RT n : Prop := forall A (g : gram T V A) pos c ins rem, gok lay g -> pos <= len -> Cok pos c ->
  cends (cfull E n g s pos c ins rem) -> rtl A g (ctx_mark c) pos ins rem (fst (cfull E n g s pos c ins rem)).

Lemma calt n A (g1 g2 : gram T V A) pos c ins rem : RT n ->
  gok lay g1 -> gok lay g2 -> pos <= len -> Cok pos c ->
  cends (alt_costr (cfull E n g1) (cfull E n g2) s pos c ins rem) ->
  rtl A (GAlt g1 g2) (ctx_mark c) pos ins rem (S (fst (alt_costr (cfull E n g1) (cfull E n g2) s pos c ins rem))).
Proof using Hco Hlay HE.
  intros IH Hg1 Hg2 Hp Hc H. unfold alt_costr in *.
  pose proof (IH _ _ _ _ ins None Hg1 Hp Hc (cends_l _ _ _ _ H)) as HT.
  destruct (snd (cfull E n g1 s pos c ins None)) as [[o|[la xa ca]|[reps mn la xa ca]]|e|] eqn:Q.
  - pose proof (rpart _ _ _ _ _ _ _ _ Hg1 Hp Hc Q _ eq_refl) as D. rewrite (cbind_ret _ _ _ _ _ Q). cbn [fst cret].
    rewrite ?Nat.add_0_r, ?Nat.max_0_r. eapply rt_alt_one; [exact D|exact I|exact HT].
  - pose proof (rpart _ _ _ _ _ _ _ _ Hg1 Hp Hc Q _ eq_refl) as D. cbn [rab er_con er_loc er_exp] in D.
    unfold cends in H. rewrite (cbind_ret _ _ _ _ _ Q) in *. cbn [fst snd] in *. destruct ca.
    { cbn [fst cret]. rewrite ?Nat.add_0_r, ?Nat.max_0_r. eapply rt_alt_one; [exact D|reflexivity|exact HT]. }
    pose proof (IH _ _ _ _ ins None Hg2 Hp Hc (cends_l _ _ _ _ H)) as HT2.
    destruct (snd (cfull E n g2 s pos c ins None)) as [r2|e|] eqn:Q2.
    2:{ pose proof (rpart _ _ _ _ _ _ _ _ Hg2 Hp Hc Q2 _ eq_refl) as D2. rewrite (cbind_exn _ _ _ _ _ Q2). cbn [fst].
        eapply rt_alt_two; [exact D|exact D2|left; exact I|exact HT|exact HT2]. }
    2:{ exfalso. apply H. unfold cbind. rewrite Q2. reflexivity. }
    pose proof (rpart _ _ _ _ _ _ _ _ Hg2 Hp Hc Q2 _ eq_refl) as D2. 
    rewrite (cbind_ret _ _ _ _ _ Q2) in *. cbn [fst snd] in *.
    destruct r2 as [o2|[lb xb cb]|[rb mb lb xb cb]].
    + match goal with |- context[if ?b then _ else _] => destruct b end; cbn [fst cret]; rewrite ?Nat.add_0_r, ?Nat.max_0_r;
        (eapply rt_alt_two; [exact D|exact D2|left; exact I|exact HT|exact HT2]).
    + cbn [res_con er_con rab er_loc er_exp] in *. destruct cb.
      { cbn [fst cret]; rewrite ?Nat.add_0_r, ?Nat.max_0_r.
        eapply rt_alt_two; [exact D|exact D2|left; reflexivity|exact HT|exact HT2]. }
      cbv zeta in *. unfold alt_recover_cost in *. destruct rem as [left|].
      2:{ cbn [fst cret]; rewrite ?Nat.add_0_r, ?Nat.max_0_r.
          eapply rt_alt_two; [exact D|exact D2|right; reflexivity|exact HT|exact HT2]. }
      pose proof (IH _ _ _ _ ins (Some left) Hg1 Hp Hc (cends_l _ _ _ _ H)) as HT3.
      destruct (snd (cfull E n g1 s pos c ins (Some left))) as [r3|e|] eqn:Q3.
      2:{ pose proof (rpart _ _ _ _ _ _ _ _ Hg1 Hp Hc Q3 _ eq_refl) as D3. rewrite (cbind_exn _ _ _ _ _ Q3). cbn [fst].
          eapply rt_alt_again_exn; [exact D|exact D2|exact D3|eexists; reflexivity|exact HT|exact HT2|exact HT3]. }
      2:{ exfalso. apply H. unfold cbind. rewrite Q3. reflexivity. }
      pose proof (rpart _ _ _ _ _ _ _ _ Hg1 Hp Hc Q3 _ eq_refl) as D3.
      rewrite (cbind_ret _ _ _ _ _ Q3) in *. cbn [fst snd] in *.
      pose proof (IH _ _ _ _ ins (Some left) Hg2 Hp Hc (cends_l _ _ _ _ H)) as HT4.
      match goal with |- context[fst (cbind ?m ?f)] => assert (K : fst (cbind m f) = fst m) end.
      { unfold cbind. destruct (snd (cfull E n g2 s pos c ins (Some left))) as [r4| |]; try reflexivity. cbn [fst].
        destruct r3, r4; cbn [fst cret]; rewrite ?Nat.add_0_r, ?Nat.max_0_r; reflexivity. }
      rewrite K. eapply rt_alt_again; [exact D|exact D2|exact D3| |exact HT|exact HT2|exact HT3|exact HT4].
      intros [e K']. destruct r3; discriminate.
    + pose proof (ropen _ _ _ _ _ _ _ Q2) as K. cbn in K. subst cb. cbn [res_con rc_con fst cret] in *.
      rewrite ?Nat.add_0_r, ?Nat.max_0_r.
      eapply rt_alt_two; [exact D|exact D2|left; reflexivity|exact HT|exact HT2].
  - pose proof (ropen _ _ _ _ _ _ _ Q) as K. cbn in K. subst ca.
    pose proof (rpart _ _ _ _ _ _ _ _ Hg1 Hp Hc Q _ eq_refl) as D. rewrite (cbind_ret _ _ _ _ _ Q). cbn [fst cret].
    rewrite ?Nat.add_0_r, ?Nat.max_0_r. eapply rt_alt_one; [exact D|reflexivity|exact HT].
  - pose proof (rpart _ _ _ _ _ _ _ _ Hg1 Hp Hc Q _ eq_refl) as D. rewrite (cbind_exn _ _ _ _ _ Q). cbn [fst].
    eapply rt_alt_one; [exact D|exact I|exact HT].
  - exfalso. apply H. unfold cbind. rewrite Q. reflexivity.
Qed.

Theorem cost_rtally n : RT n.
Proof using Hco Hlay HE.
  induction n as [|n IH]; intros A g pos c ins rem Hg Hp Hc H; [exfalso; apply H; reflexivity|].
  assert (Hcol : is_layout A g -> loc_col (ctx_loc (update_loc c s pos)) = loc_col (locof pos)).
  { intros HL. pose proof (gall_node _ _ _ Hg) as [_ HL'].
    destruct (cs_col _ _ _ _ _ CS pos c (HL' HL) Hc Hp) as [_ K]. exact K. }
  pose proof (cs_upd _ _ _ _ _ CS pos pos c Hc ltac:(unfold len in *; lia)) as Hcu.
  destruct g; cbn [cfull tick fst] in *; try (apply rt_primitive; exact I); simpl in Hg;
    unfold cends in H; cbn [tick fst snd] in *.
  - (* fmap *) unfold fmap_costr in *. rewrite cone. apply rt_fmap. apply IH; [apply Hg|exact Hp|exact Hc|].
    eapply cends_l. exact H.
  - (* alt *) apply calt; auto; apply Hg.
  - (* bind *) destruct Hg as (_ & Hg1 & Hg2). unfold bind_costr in *.
    pose proof (IH _ _ _ _ ins rem Hg1 Hp Hc (cends_l _ _ _ _ H)) as HT.
    destruct (snd (cfull E n g s pos c ins rem)) as [[o|e|rc]|e|] eqn:Q.
    + pose proof (rpart _ _ _ _ _ _ _ _ Hg1 Hp Hc Q _ eq_refl) as D.
      destruct (rgood _ _ _ _ _ _ _ _ Hg1 Hp Hc Q) as (G1 & G2 & G3 & G4).
      rewrite (cbind_ret _ _ _ _ _ Q) in *. cbn [fst snd] in *. rewrite cone.
      eapply rt_bind_both; [exact D|exact HT|]. rewrite <- G4, <- G2. apply IH; [apply Hg2|apply G1|exact G3|].
      eapply cends_l. exact H.
    + pose proof (rpart _ _ _ _ _ _ _ _ Hg1 Hp Hc Q _ eq_refl) as D. rewrite (cbind_ret _ _ _ _ _ Q). cbn [fst cret].
      rewrite ?Nat.add_0_r, ?Nat.max_0_r. eapply rt_bind_one; [exact D| |exact HT]. left. cbn. eauto.
    + pose proof (rpart _ _ _ _ _ _ _ _ Hg1 Hp Hc Q _ eq_refl) as D.
      pose proof (rgood _ _ _ _ _ _ _ _ Hg1 Hp Hc Q) as G. cbn [rc_reps] in G.
      rewrite (cbind_ret _ _ _ _ _ Q) in *. cbn [fst snd] in *. rewrite ccont_fst.
      eapply rt_bind_repairs; [exact D|exact HT|]. apply cconts; auto.
      * intros v pos' c' left Hp' Hc' <- H'. apply IH; auto; try apply Hg2.
      * intros v pos' c' left o Hp' Hc' <- H'. eapply rpart; [first [exact Hg2|apply Hg2]|exact Hp'|exact Hc'|reflexivity|exact H'].
      * eapply cends_l. exact H.
    + pose proof (rpart _ _ _ _ _ _ _ _ Hg1 Hp Hc Q _ eq_refl) as D. rewrite (cbind_exn _ _ _ _ _ Q). cbn [fst].
      eapply rt_bind_one; [exact D| |exact HT]. right. eexists; reflexivity.
    + exfalso. apply H. unfold cbind. rewrite Q. reflexivity.
  - (* seq *) destruct Hg as (_ & Hg1 & Hg2). unfold seq_costr in *.
    pose proof (IH _ _ _ _ ins rem Hg1 Hp Hc (cends_l _ _ _ _ H)) as HT.
    destruct (snd (cfull E n g1 s pos c ins rem)) as [[o|e|rc]|e|] eqn:Q.
    + pose proof (rpart _ _ _ _ _ _ _ _ Hg1 Hp Hc Q _ eq_refl) as D.
      destruct (rgood _ _ _ _ _ _ _ _ Hg1 Hp Hc Q) as (G1 & G2 & G3 & G4).
      rewrite (cbind_ret _ _ _ _ _ Q) in *. cbn [fst snd] in *. cbv zeta in *. rewrite cone.
      eapply rt_seq_both; [exact D|exact HT|]. rewrite <- G4, <- G2. apply IH; [exact Hg2|apply G1|exact G3|].
      eapply cends_l. exact H.
    + pose proof (rpart _ _ _ _ _ _ _ _ Hg1 Hp Hc Q _ eq_refl) as D. rewrite (cbind_ret _ _ _ _ _ Q). cbn [fst cret].
      rewrite ?Nat.add_0_r, ?Nat.max_0_r. eapply rt_seq_one; [exact D| |exact HT]. left. cbn. eauto.
    + pose proof (rpart _ _ _ _ _ _ _ _ Hg1 Hp Hc Q _ eq_refl) as D.
      pose proof (rgood _ _ _ _ _ _ _ _ Hg1 Hp Hc Q) as G. cbn [rc_reps] in G.
      rewrite (cbind_ret _ _ _ _ _ Q) in *. cbn [fst snd] in *. rewrite ccont_fst.
      eapply rt_seq_repairs; [exact D|exact HT|]. apply cconts; auto.
      * intros v pos' c' left Hp' Hc' <- H'. apply IH; auto; try apply Hg2.
      * intros v pos' c' left o Hp' Hc' <- H'. eapply rpart; [first [exact Hg2|apply Hg2]|exact Hp'|exact Hc'|reflexivity|exact H'].
      * eapply cends_l. exact H.
    + pose proof (rpart _ _ _ _ _ _ _ _ Hg1 Hp Hc Q _ eq_refl) as D. rewrite (cbind_exn _ _ _ _ _ Q). cbn [fst].
      eapply rt_seq_one; [exact D| |exact HT]. right. eexists; reflexivity.
    + exfalso. apply H. unfold cbind. rewrite Q. reflexivity.
  - (* maybe *) apply rt_maybe. unfold maybe_costr in *. rewrite cone. apply IH; auto; [exact (proj2 Hg)|].
    eapply cends_l. exact H.
  - (* many *) apply cmanyr; auto; [exact (proj2 Hg)|]. intros pos' c' ins' H1 H2 H3. apply IH; auto. exact (proj2 Hg).
  - (* attempt *) unfold attempt_costr in *. destruct rem as [left|].
    + apply rt_attempt. apply IH; auto. exact (proj2 Hg).
    + apply rt_attempt_plain.
      pose proof (cost_tally E s get locof lay Hco Hlay HE n _ _ _ _ (proj2 Hg) Hp Hc (cends_l _ _ _ _ H)) as HT.
      match goal with |- context[fst (cbind ?m ?f)] => assert (K : fst (cbind m f) = fst m) end.
      { unfold cbind. destruct (snd (cfast E n g s pos c)) as [[o|e]| |]; cbn [fst cret]; rewrite ?Nat.add_0_r, ?Nat.max_0_r; reflexivity. }
      rewrite K. exact HT.
  - (* label *) apply rt_label. unfold label_costr in *. rewrite cone. apply IH; [exact (proj2 Hg)|exact Hp|exact Hc|].
    eapply cends_l. exact H.
  - apply rt_recover. unfold recover_costr in *. rewrite cone. apply IH; auto; [exact (proj2 Hg)|]. eapply cends_l. exact H.
  - apply rt_with. unfold recover_with_costr in *. destruct rem.
    + rewrite cone. apply IH; [exact (proj2 Hg)|exact Hp|exact Hc|]. eapply cends_l. exact H.
    + apply IH; [exact (proj2 Hg)|exact Hp|exact Hc|exact H].
  - apply rt_withfn. unfold recover_with_costr in *. destruct rem.
    + rewrite cone. apply IH; [exact (proj2 Hg)|exact Hp|exact Hc|]. eapply cends_l. exact H.
    + apply IH; [exact (proj2 Hg)|exact Hp|exact Hc|exact H].
  - (* block *) unfold block_costr in *. cbv zeta in *. rewrite cone. apply rt_block. rewrite <- Hcol by exact I.
    set (c1 := update_loc c s pos) in *.
    change (loc_col (ctx_loc c1)) with (ctx_mark (set_mark c1 (loc_col (ctx_loc c1)))).
    apply IH; auto; [exact (proj2 Hg)|]. eapply cends_l. exact H.
  - (* aligned *) unfold aligned_costr in *. cbv zeta in *.
    rewrite upd_mark', (Hcol I) in *. destruct (Z.eqb_spec (ctx_mark c) (loc_col (locof pos))) as [K|K].
    + apply rt_aligned; [congruence|]. rewrite <- (upd_mark' s c pos). apply IH; auto. exact (proj2 Hg).
    + cbn [fst cret]. apply rt_aligned_no. congruence.
  - (* indented *) unfold indented_costr in *. cbv zeta in *.
    rewrite upd_mark', (Hcol I) in *. destruct (Z.eqb_spec (ctx_mark c + delta) (loc_col (locof pos))) as [K|K].
    + rewrite cone. apply rt_indented; [congruence|].
      change (loc_col (locof pos)) with (ctx_mark (set_mark (update_loc c s pos) (loc_col (locof pos)))) at 1.
      apply IH; auto; [exact (proj2 Hg)|]. eapply cends_l. exact H.
    + cbn [fst cret]. apply rt_indented_no. congruence.
  - (* delay *) apply rt_delay. apply IH; auto.
Qed.
End CostRTally.

Section DepthRTally.
Context {T : Type} {V : nat -> Type}.
Variable E : env T V.
Variable s : list T.
Variable get : loc -> list T -> nat -> loc.
Variable locof : nat -> loc.
Variable lay : Prop.
Hypothesis Hco : cohere get s locof.
Hypothesis Hlay : lay -> exactpos s locof.
Hypothesis HE : forall d, gok lay (E d).
Let CS := pos_system s get locof lay Hco Hlay.
Let Cok := pos_Cok (T:=T) get locof.
Let len := List.length s.
Notation rtl := (rtally Nat.max E s locof).
Notation rtls := (rtallies Nat.max E s locof).
Notation grep m := (RecProofs.goodrep s get locof m).

Lemma rpartd n A (g : gram T V A) pos c ins rem x : gok lay g -> pos <= len -> Cok pos c ->
  snd (dfull E n g s pos c ins rem) = x ->
  forall o, rabs x = Some o -> rsem E s locof A g (ctx_mark c) pos ins rem o.
Proof using Hco Hlay HE.
  intros Hg Hp Hc <- o H. rewrite dfull_full in H. eapply (rec_sound E s get locof lay Hco Hlay HE n); eauto.
Qed.
Lemma rgoodd n A (g : gram T V A) pos c ins rem r : gok lay g -> pos <= len -> Cok pos c ->
  snd (dfull E n g s pos c ins rem) = Ret r ->
  match r with
  | ROk o => pos <= ok_pos o <= len /\ ok_con o = Nat.ltb pos (ok_pos o) /\
      Cok (ok_pos o) (ok_ctx o) /\ ctx_mark (ok_ctx o) = ctx_mark c
  | RErr _ => True
  | RRec rc => Forall (grep (ctx_mark c)) (rc_reps rc)
  end.
Proof using Hco Hlay HE.
  intros Hg Hp Hc H. rewrite dfull_full in H. eapply (fgood E s get locof lay Hco Hlay HE); eauto.
Qed.

Lemma dconts A B C (k : A -> gram T V B) (merge : A -> B -> C) m ins (F : A -> nat -> ctx T -> Z -> dm (res T B)) :
  (forall v pos c left, pos <= len -> Cok pos c -> ctx_mark c = m -> dends (F v pos c left) ->
     rtl B (k v) m pos ins (Some left) (fst (F v pos c left))) ->
  (forall v pos c left o, pos <= len -> Cok pos c -> ctx_mark c = m ->
     rabs (snd (F v pos c left)) = Some o -> rsem E s locof B (k v) m pos ins (Some left) o) ->
  forall reps, Forall (grep m) reps -> dends (dflat_map (cont_one_depth ins F merge) reps) ->
  rtls A B k m ins (map off reps) (fst (dflat_map (cont_one_depth ins F merge) reps)).
Proof using.
  intros HT HS reps. induction reps as [|r reps IH]; intros HG H; cbn [dflat_map map] in *.
  { apply rts_nil. }
  inversion HG as [|? ? (G1 & G2 & G3) HG']; subst. specialize (IH HG').
  pose proof (dends_l _ _ _ _ H) as H1. pose proof (dends_l _ _ _ _ H1) as H2.
  specialize (HT (r_val r) (r_pos r) (r_ctx r) (r_ins r) G1 G2 eq_refl H2).
  pose proof (fun o => HS (r_val r) (r_pos r) (r_ctx r) (r_ins r) o G1 G2 eq_refl) as K.
  change (r_val r) with (f_val (off r)) in HT at 1. change (r_pos r) with (f_pos (off r)) in HT at 1.
  change (r_ins r) with (f_left (off r)) in HT at 1.
  unfold dends in H. 
  destruct (snd (F (r_val r) (r_pos r) (r_ctx r) (r_ins r))) as [rb|e|] eqn:Q.
  - specialize (K _ eq_refl).
    assert (Q1 : exists l, snd (cont_one_depth ins F merge r) = Ret l /\
      fst (cont_one_depth ins F merge r) = fst (F (r_val r) (r_pos r) (r_ctx r) (r_ins r))).
    { unfold cont_one_depth. rewrite (dbind_ret _ _ _ _ _ Q). destruct rb; cbn [fst snd dret]; rewrite ?Nat.max_0_r; eauto. }
    destruct Q1 as (l & Q1 & Q2).
    rewrite (dbind_ret _ _ _ _ _ Q1) in *. cbn [fst snd] in *. rewrite done_, Q2.
    eapply rts_more; [exact K|intros [e K']; destruct rb; discriminate|exact HT|].
    apply IH. eapply dends_l. exact H.
  - specialize (K _ eq_refl).
    assert (Q1 : cont_one_depth ins F merge r = (fst (F (r_val r) (r_pos r) (r_ctx r) (r_ins r)), Raise e))
      by (unfold cont_one_depth; apply dbind_exn; exact Q).
    rewrite Q1. unfold dbind at 1. cbn [fst snd]. eapply rts_exn; [exact K|eexists; reflexivity|exact HT].
  - exfalso. apply H2. exact Q.
Qed.
Lemma dcont_fst A B C (rc : recr T A) ins (F : A -> nat -> ctx T -> Z -> dm (res T B)) (merge : A -> B -> C) :
  fst (continue_depth rc ins F merge) = fst (dflat_map (cont_one_depth ins F merge) (rc_reps rc)).
Proof using. unfold continue_depth. apply done_. Qed.

Lemma dmanyr A (p : gram T V A) N : gok lay p ->
  (forall pos c ins, pos <= len -> Cok pos c -> dends (dfull E N p s pos c ins None) ->
     rtl A p (ctx_mark c) pos ins None (fst (dfull E N p s pos c ins None))) ->
  forall n con vs pos c ins rem, pos <= len -> Cok pos c -> dends (many_depthr (dfull E N p) n con vs s pos c ins) ->
  rtl _ (GMany p) (ctx_mark c) pos ins rem (S (fst (many_depthr (dfull E N p) n con vs s pos c ins))).
Proof using Hco Hlay HE.
  intros Hg HF n. induction n as [|n IH]; intros con vs pos c ins rem Hp Hc H; [exfalso; apply H; reflexivity|].
  cbn [many_depthr] in *. pose proof (HF _ _ _ Hp Hc (dends_l _ _ _ _ H)) as HT.
  destruct (snd (dfull E N p s pos c ins None)) as [[o|e|rc]|e|] eqn:Q.
  - pose proof (rpartd _ _ _ _ _ _ _ _ Hg Hp Hc Q _ eq_refl) as D. cbn [rab] in D.
    destruct (rgoodd _ _ _ _ _ _ _ _ Hg Hp Hc Q) as (G1 & G2 & G3 & G4).
    unfold dends in H. rewrite (dbind_ret _ _ _ _ _ Q) in *. cbn [fst snd] in *. destruct (ok_con o).
    + symmetry in G2. apply Nat.ltb_lt in G2. eapply rt_many_more; eauto.
      rewrite <- G4. apply IH; [lia|exact G3|exact H].
    + cbn [dret fst]. rewrite ?Nat.add_0_r, ?Nat.max_0_r. eapply rt_many_last; [exact D| |exact HT].
      right. symmetry in G2. apply Nat.ltb_ge in G2. replace (ok_pos o) with pos by lia. eauto.
  - pose proof (rpartd _ _ _ _ _ _ _ _ Hg Hp Hc Q _ eq_refl) as D. rewrite (dbind_ret _ _ _ _ _ Q). cbn [fst snd].
    cbn [rab] in D. destruct (er_con e); cbn [fst dret]; rewrite ?Nat.add_0_r, ?Nat.max_0_r;
      (eapply rt_many_last; [exact D| |exact HT]; left; left; eauto).
  - pose proof (rpartd _ _ _ _ _ _ _ _ Hg Hp Hc Q _ eq_refl) as D. cbn [rab] in D.
    pose proof (rgoodd _ _ _ _ _ _ _ _ Hg Hp Hc Q) as G. cbn [rc_reps] in G.
    unfold dends in H. rewrite (dbind_ret _ _ _ _ _ Q) in *. cbn [fst snd] in *.
    rewrite dcont_fst. eapply rt_many_repairs; [exact D|exact HT|].
    apply dconts; auto.
    + intros v pos' c' left Hp' Hc' <- H'. cbn [nest fst snd] in *. apply IH; auto.
    + intros v pos' c' left o Hp' Hc' <- H'. cbn [nest fst snd] in *.
      rewrite (manyr_derases _ (full E N p)) in H' by (intros ? ? ? ? ?; apply dfull_full).
      eapply (many_rsound E s get locof lay A p (full E N p)); eauto.
      * intros pos2 c2 ins2 o2 K1 K2 K3. eapply (rec_sound E s get locof lay Hco Hlay HE N); eauto.
      * intros pos2 c2 ins2 r2 K1 K2 K3. eapply (fgood E s get locof lay Hco Hlay HE); eauto.
    + eapply dends_l. exact H.
  - pose proof (rpartd _ _ _ _ _ _ _ _ Hg Hp Hc Q _ eq_refl) as D. rewrite (dbind_exn _ _ _ _ _ Q). cbn [fst snd].
    eapply rt_many_last; [exact D| |exact HT]. left. right. eexists. reflexivity.
  - exfalso. apply H. unfold dbind. rewrite Q. reflexivity.
Qed.
Lemma ropend n A (g : gram T V A) pos c ins rc :
  snd (dfull E n g s pos c ins None) = Ret (RRec rc) -> rc_con rc = true.
Proof using. intros H. rewrite dfull_full in H. eapply none_open. exact H. Qed.

Definition RTD n : Prop := forall A (g : gram T V A) pos c ins rem, gok lay g -> pos <= len -> Cok pos c ->
  dends (dfull E n g s pos c ins rem) -> rtl A g (ctx_mark c) pos ins rem (fst (dfull E n g s pos c ins rem)).

Lemma dalt n A (g1 g2 : gram T V A) pos c ins rem : RTD n ->
  gok lay g1 -> gok lay g2 -> pos <= len -> Cok pos c ->
  dends (alt_depthr (dfull E n g1) (dfull E n g2) s pos c ins rem) ->
  rtl A (GAlt g1 g2) (ctx_mark c) pos ins rem (S (fst (alt_depthr (dfull E n g1) (dfull E n g2) s pos c ins rem))).
Proof using Hco Hlay HE.
  intros IH Hg1 Hg2 Hp Hc H. unfold alt_depthr in *.
  pose proof (IH _ _ _ _ ins None Hg1 Hp Hc (dends_l _ _ _ _ H)) as HT.
  destruct (snd (dfull E n g1 s pos c ins None)) as [[o|[la xa ca]|[reps mn la xa ca]]|e|] eqn:Q.
  - pose proof (rpartd _ _ _ _ _ _ _ _ Hg1 Hp Hc Q _ eq_refl) as D. rewrite (dbind_ret _ _ _ _ _ Q). cbn [fst dret].
    rewrite ?Nat.add_0_r, ?Nat.max_0_r. eapply rt_alt_one; [exact D|exact I|exact HT].
  - pose proof (rpartd _ _ _ _ _ _ _ _ Hg1 Hp Hc Q _ eq_refl) as D. cbn [rab er_con er_loc er_exp] in D.
    unfold dends in H. rewrite (dbind_ret _ _ _ _ _ Q) in *. cbn [fst snd] in *. destruct ca.
    { cbn [fst dret]. rewrite ?Nat.add_0_r, ?Nat.max_0_r. eapply rt_alt_one; [exact D|reflexivity|exact HT]. }
    pose proof (IH _ _ _ _ ins None Hg2 Hp Hc (dends_l _ _ _ _ H)) as HT2.
    destruct (snd (dfull E n g2 s pos c ins None)) as [r2|e|] eqn:Q2.
    2:{ pose proof (rpartd _ _ _ _ _ _ _ _ Hg2 Hp Hc Q2 _ eq_refl) as D2. rewrite (dbind_exn _ _ _ _ _ Q2). cbn [fst].
        eapply rt_alt_two; [exact D|exact D2|left; exact I|exact HT|exact HT2]. }
    2:{ exfalso. apply H. unfold dbind. rewrite Q2. reflexivity. }
    pose proof (rpartd _ _ _ _ _ _ _ _ Hg2 Hp Hc Q2 _ eq_refl) as D2. 
    rewrite (dbind_ret _ _ _ _ _ Q2) in *. cbn [fst snd] in *.
    destruct r2 as [o2|[lb xb cb]|[rb mb lb xb cb]].
    + match goal with |- context[if ?b then _ else _] => destruct b end; cbn [fst dret]; rewrite ?Nat.add_0_r, ?Nat.max_0_r;
        (eapply rt_alt_two; [exact D|exact D2|left; exact I|exact HT|exact HT2]).
    + cbn [res_con er_con rab er_loc er_exp] in *. destruct cb.
      { cbn [fst dret]; rewrite ?Nat.add_0_r, ?Nat.max_0_r.
        eapply rt_alt_two; [exact D|exact D2|left; reflexivity|exact HT|exact HT2]. }
      cbv zeta in *. unfold alt_recover_depth in *. destruct rem as [left|].
      2:{ cbn [fst dret]; rewrite ?Nat.add_0_r, ?Nat.max_0_r.
          eapply rt_alt_two; [exact D|exact D2|right; reflexivity|exact HT|exact HT2]. }
      pose proof (IH _ _ _ _ ins (Some left) Hg1 Hp Hc (dends_l _ _ _ _ H)) as HT3.
      destruct (snd (dfull E n g1 s pos c ins (Some left))) as [r3|e|] eqn:Q3.
      2:{ pose proof (rpartd _ _ _ _ _ _ _ _ Hg1 Hp Hc Q3 _ eq_refl) as D3. rewrite (dbind_exn _ _ _ _ _ Q3). cbn [fst].
          eapply rt_alt_again_exn; [exact D|exact D2|exact D3|eexists; reflexivity|exact HT|exact HT2|exact HT3]. }
      2:{ exfalso. apply H. unfold dbind. rewrite Q3. reflexivity. }
      pose proof (rpartd _ _ _ _ _ _ _ _ Hg1 Hp Hc Q3 _ eq_refl) as D3.
      rewrite (dbind_ret _ _ _ _ _ Q3) in *. cbn [fst snd] in *.
      pose proof (IH _ _ _ _ ins (Some left) Hg2 Hp Hc (dends_l _ _ _ _ H)) as HT4.
      match goal with |- context[fst (dbind ?m ?f)] => assert (K : fst (dbind m f) = fst m) end.
      { unfold dbind. destruct (snd (dfull E n g2 s pos c ins (Some left))) as [r4| |]; try reflexivity. cbn [fst].
        destruct r3, r4; cbn [fst dret]; rewrite ?Nat.add_0_r, ?Nat.max_0_r; reflexivity. }
      rewrite K. eapply rt_alt_again; [exact D|exact D2|exact D3| |exact HT|exact HT2|exact HT3|exact HT4].
      intros [e K']. destruct r3; discriminate.
    + pose proof (ropend _ _ _ _ _ _ _ Q2) as K. cbn in K. subst cb. cbn [res_con rc_con fst dret] in *.
      rewrite ?Nat.add_0_r, ?Nat.max_0_r.
      eapply rt_alt_two; [exact D|exact D2|left; reflexivity|exact HT|exact HT2].
  - pose proof (ropend _ _ _ _ _ _ _ Q) as K. cbn in K. subst ca.
    pose proof (rpartd _ _ _ _ _ _ _ _ Hg1 Hp Hc Q _ eq_refl) as D. rewrite (dbind_ret _ _ _ _ _ Q). cbn [fst dret].
    rewrite ?Nat.add_0_r, ?Nat.max_0_r. eapply rt_alt_one; [exact D|reflexivity|exact HT].
  - pose proof (rpartd _ _ _ _ _ _ _ _ Hg1 Hp Hc Q _ eq_refl) as D. rewrite (dbind_exn _ _ _ _ _ Q). cbn [fst].
    eapply rt_alt_one; [exact D|exact I|exact HT].
  - exfalso. apply H. unfold dbind. rewrite Q. reflexivity.
Qed.

Theorem depth_rtally n : RTD n.
Proof using Hco Hlay HE.
  induction n as [|n IH]; intros A g pos c ins rem Hg Hp Hc H; [exfalso; apply H; reflexivity|].
  assert (Hcol : is_layout A g -> loc_col (ctx_loc (update_loc c s pos)) = loc_col (locof pos)).
  { intros HL. pose proof (gall_node _ _ _ Hg) as [_ HL'].
    destruct (cs_col _ _ _ _ _ CS pos c (HL' HL) Hc Hp) as [_ K]. exact K. }
  pose proof (cs_upd _ _ _ _ _ CS pos pos c Hc ltac:(unfold len in *; lia)) as Hcu.
  destruct g; cbn [dfull nest fst] in *; try (apply rt_primitive; exact I); simpl in Hg;
    unfold dends in H; cbn [nest fst snd] in *.
  - (* fmap *) unfold fmap_depthr in *. rewrite done_. apply rt_fmap. apply IH; [apply Hg|exact Hp|exact Hc|].
    eapply dends_l. exact H.
  - (* alt *) apply dalt; auto; apply Hg.
  - (* bind *) destruct Hg as (_ & Hg1 & Hg2). unfold bind_depthr in *.
    pose proof (IH _ _ _ _ ins rem Hg1 Hp Hc (dends_l _ _ _ _ H)) as HT.
    destruct (snd (dfull E n g s pos c ins rem)) as [[o|e|rc]|e|] eqn:Q.
    + pose proof (rpartd _ _ _ _ _ _ _ _ Hg1 Hp Hc Q _ eq_refl) as D.
      destruct (rgoodd _ _ _ _ _ _ _ _ Hg1 Hp Hc Q) as (G1 & G2 & G3 & G4).
      rewrite (dbind_ret _ _ _ _ _ Q) in *. cbn [fst snd] in *. rewrite done_.
      eapply rt_bind_both; [exact D|exact HT|]. rewrite <- G4, <- G2. apply IH; [apply Hg2|apply G1|exact G3|].
      eapply dends_l. exact H.
    + pose proof (rpartd _ _ _ _ _ _ _ _ Hg1 Hp Hc Q _ eq_refl) as D. rewrite (dbind_ret _ _ _ _ _ Q). cbn [fst dret].
      rewrite ?Nat.add_0_r, ?Nat.max_0_r. eapply rt_bind_one; [exact D| |exact HT]. left. cbn. eauto.
    + pose proof (rpartd _ _ _ _ _ _ _ _ Hg1 Hp Hc Q _ eq_refl) as D.
      pose proof (rgoodd _ _ _ _ _ _ _ _ Hg1 Hp Hc Q) as G. cbn [rc_reps] in G.
      rewrite (dbind_ret _ _ _ _ _ Q) in *. cbn [fst snd] in *. rewrite dcont_fst.
      eapply rt_bind_repairs; [exact D|exact HT|]. apply dconts; auto.
      * intros v pos' c' left Hp' Hc' <- H'. apply IH; auto; try apply Hg2.
      * intros v pos' c' left o Hp' Hc' <- H'. eapply rpartd; [first [exact Hg2|apply Hg2]|exact Hp'|exact Hc'|reflexivity|exact H'].
      * eapply dends_l. exact H.
    + pose proof (rpartd _ _ _ _ _ _ _ _ Hg1 Hp Hc Q _ eq_refl) as D. rewrite (dbind_exn _ _ _ _ _ Q). cbn [fst].
      eapply rt_bind_one; [exact D| |exact HT]. right. eexists; reflexivity.
    + exfalso. apply H. unfold dbind. rewrite Q. reflexivity.
  - (* seq *) destruct Hg as (_ & Hg1 & Hg2). unfold seq_depthr in *.
    pose proof (IH _ _ _ _ ins rem Hg1 Hp Hc (dends_l _ _ _ _ H)) as HT.
    destruct (snd (dfull E n g1 s pos c ins rem)) as [[o|e|rc]|e|] eqn:Q.
    + pose proof (rpartd _ _ _ _ _ _ _ _ Hg1 Hp Hc Q _ eq_refl) as D.
      destruct (rgoodd _ _ _ _ _ _ _ _ Hg1 Hp Hc Q) as (G1 & G2 & G3 & G4).
      rewrite (dbind_ret _ _ _ _ _ Q) in *. cbn [fst snd] in *. cbv zeta in *. rewrite done_.
      eapply rt_seq_both; [exact D|exact HT|]. rewrite <- G4, <- G2. apply IH; [exact Hg2|apply G1|exact G3|].
      eapply dends_l. exact H.
    + pose proof (rpartd _ _ _ _ _ _ _ _ Hg1 Hp Hc Q _ eq_refl) as D. rewrite (dbind_ret _ _ _ _ _ Q). cbn [fst dret].
      rewrite ?Nat.add_0_r, ?Nat.max_0_r. eapply rt_seq_one; [exact D| |exact HT]. left. cbn. eauto.
    + pose proof (rpartd _ _ _ _ _ _ _ _ Hg1 Hp Hc Q _ eq_refl) as D.
      pose proof (rgoodd _ _ _ _ _ _ _ _ Hg1 Hp Hc Q) as G. cbn [rc_reps] in G.
      rewrite (dbind_ret _ _ _ _ _ Q) in *. cbn [fst snd] in *. rewrite dcont_fst.
      eapply rt_seq_repairs; [exact D|exact HT|]. apply dconts; auto.
      * intros v pos' c' left Hp' Hc' <- H'. apply IH; auto; try apply Hg2.
      * intros v pos' c' left o Hp' Hc' <- H'. eapply rpartd; [first [exact Hg2|apply Hg2]|exact Hp'|exact Hc'|reflexivity|exact H'].
      * eapply dends_l. exact H.
    + pose proof (rpartd _ _ _ _ _ _ _ _ Hg1 Hp Hc Q _ eq_refl) as D. rewrite (dbind_exn _ _ _ _ _ Q). cbn [fst].
      eapply rt_seq_one; [exact D| |exact HT]. right. eexists; reflexivity.
    + exfalso. apply H. unfold dbind. rewrite Q. reflexivity.
  - (* maybe *) apply rt_maybe. unfold maybe_depthr in *. rewrite done_. apply IH; auto; [exact (proj2 Hg)|].
    eapply dends_l. exact H.
  - (* many *) apply dmanyr; auto; [exact (proj2 Hg)|]. intros pos' c' ins' H1 H2 H3. apply IH; auto. exact (proj2 Hg).
  - (* attempt *) unfold attempt_depthr in *. destruct rem as [left|].
    + apply rt_attempt. apply IH; auto. exact (proj2 Hg).
    + apply rt_attempt_plain.
      pose proof (depth_tally E s get locof lay Hco Hlay HE n _ _ _ _ (proj2 Hg) Hp Hc (dends_l _ _ _ _ H)) as HT.
      match goal with |- context[fst (dbind ?m ?f)] => assert (K : fst (dbind m f) = fst m) end.
      { unfold dbind. destruct (snd (dfast E n g s pos c)) as [[o|e]| |]; cbn [fst dret]; rewrite ?Nat.add_0_r, ?Nat.max_0_r; reflexivity. }
      rewrite K. exact HT.
  - (* label *) apply rt_label. unfold label_depthr in *. rewrite done_. apply IH; [exact (proj2 Hg)|exact Hp|exact Hc|].
    eapply dends_l. exact H.
  - apply rt_recover. unfold recover_depthr in *. rewrite done_. apply IH; auto; [exact (proj2 Hg)|]. eapply dends_l. exact H.
  - apply rt_with. unfold recover_with_depthr in *. destruct rem.
    + rewrite done_. apply IH; [exact (proj2 Hg)|exact Hp|exact Hc|]. eapply dends_l. exact H.
    + apply IH; [exact (proj2 Hg)|exact Hp|exact Hc|exact H].
  - apply rt_withfn. unfold recover_with_depthr in *. destruct rem.
    + rewrite done_. apply IH; [exact (proj2 Hg)|exact Hp|exact Hc|]. eapply dends_l. exact H.
    + apply IH; [exact (proj2 Hg)|exact Hp|exact Hc|exact H].
  - (* block *) unfold block_depthr in *. cbv zeta in *. rewrite done_. apply rt_block. rewrite <- Hcol by exact I.
    set (c1 := update_loc c s pos) in *.
    change (loc_col (ctx_loc c1)) with (ctx_mark (set_mark c1 (loc_col (ctx_loc c1)))).
    apply IH; auto; [exact (proj2 Hg)|]. eapply dends_l. exact H.
  - (* aligned *) unfold aligned_depthr in *. cbv zeta in *.
    rewrite upd_mark', (Hcol I) in *. destruct (Z.eqb_spec (ctx_mark c) (loc_col (locof pos))) as [K|K].
    + apply rt_aligned; [congruence|]. rewrite <- (upd_mark' s c pos). apply IH; auto. exact (proj2 Hg).
    + cbn [fst dret]. apply rt_aligned_no. congruence.
  - (* indented *) unfold indented_depthr in *. cbv zeta in *.
    rewrite upd_mark', (Hcol I) in *. destruct (Z.eqb_spec (ctx_mark c + delta) (loc_col (locof pos))) as [K|K].
    + rewrite done_. apply rt_indented; [congruence|].
      change (loc_col (locof pos)) with (ctx_mark (set_mark (update_loc c s pos) (loc_col (locof pos)))) at 1.
      apply IH; auto; [exact (proj2 Hg)|]. eapply dends_l. exact H.
    + cbn [fst dret]. apply rt_indented_no. congruence.
  - (* delay *) apply rt_delay. apply IH; auto.
Qed.
End DepthRTally.
