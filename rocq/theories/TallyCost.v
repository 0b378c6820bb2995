(** The counted interpreters count what the rules of [TallySpec.v] say. *)
From Verif Require Export TallySpec CostProofs DepthProofs DiagProofs PegProofs.
From Coq Require Import Lia.

Section CostTally.
Context {T : Type} {V : nat -> Type}.
Variable E : env T V.
Variable s : list T.
Variable get : loc -> list T -> nat -> loc.
Variable locof : nat -> loc.
Variable lay : Prop.
Hypothesis Hco : cohere get s locof.
Hypothesis Hlay : lay -> exactpos s locof.
Hypothesis HE : forall d, gok lay (E d).
Let CS := pos_system s get locof lay Hco Hlay.
Let Cok := pos_Cok (T:=T) get locof.
Let len := List.length s.
Notation tl := (tally Nat.add E s locof).

Definition cends {A} (m : cm A) : Prop := snd m <> NoFuel.
Lemma cends_l A B (m : cm A) (f : A -> cm B) : cends (cbind m f) -> cends m.
Proof using. unfold cends, cbind. intros H K. rewrite K in H. apply H. reflexivity. Qed.
Lemma cone A B (m : cm A) (f : A -> out B) : fst (cbind m (fun a => cret (f a))) = fst m.
Proof using. unfold cbind. destruct (snd m); [apply Nat.add_0_r|reflexivity|reflexivity]. Qed.
Lemma cbind_ret A B (m : cm A) (f : A -> cm B) a : snd m = Ret a -> cbind m f = (Nat.add (fst m) (fst (f a)), snd (f a)).
Proof using. unfold cbind. intros ->. reflexivity. Qed.
Lemma cbind_exn A B (m : cm A) (f : A -> cm B) e : snd m = Raise e -> cbind m f = (fst m, Raise e).
Proof using. unfold cbind. intros ->. reflexivity. Qed.

(** what is known of a part *)
Lemma cpart n A (g : gram T V A) pos c x : gok lay g -> pos <= len -> Cok pos c -> snd (cfast E n g s pos c) = x ->
  forall o, dabs x = Some o -> diag E s locof A g (ctx_mark c) pos o.
Proof using Hco Hlay HE.
  intros Hg Hp Hc <- o H. rewrite cfast_fast in H. eapply (diag_sound E s get locof lay Hco Hlay HE n); eauto.
Qed.
Lemma cgood n A (g : gram T V A) pos c o : gok lay g -> pos <= len -> Cok pos c -> snd (cfast E n g s pos c) = Ret (SOk o) ->
  pos <= ok_pos o <= len /\ ok_con o = Nat.ltb pos (ok_pos o) /\ Cok (ok_pos o) (ok_ctx o) /\ ctx_mark (ok_ctx o) = ctx_mark c.
Proof using Hco Hlay HE.
  intros Hg Hp Hc H. rewrite cfast_fast in H. eapply (DiagProofs.good_ok E s get locof lay Hco Hlay HE); eauto.
Qed.

Lemma cmany A (p : gram T V A) N : gok lay p ->
  (forall pos c, pos <= len -> Cok pos c -> cends (cfast E N p s pos c) -> tl A p (ctx_mark c) pos (fst (cfast E N p s pos c))) ->
  forall n con vs pos c, pos <= len -> Cok pos c -> cends (many_cost (cfast E N p) n con vs s pos c) ->
  tl _ (GMany p) (ctx_mark c) pos (S (fst (many_cost (cfast E N p) n con vs s pos c))).
Proof using Hco Hlay HE.
  intros Hg HF n. induction n as [|n IH]; intros con vs pos c Hp Hc H; [exfalso; apply H; reflexivity|].
  cbn [many_cost] in *. pose proof (HF _ _ Hp Hc (cends_l _ _ _ _ H)) as HT.
  destruct (snd (cfast E N p s pos c)) as [[o|e]|e|] eqn:Q.
  - pose proof (cpart _ _ _ _ _ _ Hg Hp Hc Q _ eq_refl) as D. cbn [dabs] in D.
    destruct (cgood _ _ _ _ _ _ Hg Hp Hc Q) as (G1 & G2 & G3 & G4).
    unfold cends in H. rewrite (cbind_ret _ _ _ _ _ Q) in *. cbn [fst snd] in *. destruct (ok_con o).
    + symmetry in G2. apply Nat.ltb_lt in G2. eapply ty_many_more; eauto.
      rewrite <- G4. apply IH; [lia|exact G3|exact H].
    + cbn [cret fst]. rewrite ?Nat.add_0_r, ?Nat.max_0_r. eapply ty_many_last; [exact D| |exact HT].
      intros v j X K Hlt. injection K as <- <- <-. apply Nat.ltb_lt in Hlt. congruence.
  - pose proof (cpart _ _ _ _ _ _ Hg Hp Hc Q _ eq_refl) as D. rewrite (cbind_ret _ _ _ _ _ Q). cbn [fst snd].
    cbn [dabs] in D. destruct (er_con e); cbn [fst cret]; rewrite ?Nat.add_0_r, ?Nat.max_0_r;
      (eapply ty_many_last; [exact D| |exact HT]; intros v j X; discriminate).
  - pose proof (cpart _ _ _ _ _ _ Hg Hp Hc Q _ eq_refl) as D. rewrite (cbind_exn _ _ _ _ _ Q). cbn [fst snd].
    eapply ty_many_last; [exact D| |exact HT]. intros v j X; discriminate.
  - exfalso. apply H. unfold cbind. rewrite Q. reflexivity.
Qed.

Theorem cost_tally n : forall A (g : gram T V A) pos c, gok lay g -> pos <= len -> Cok pos c ->
  cends (cfast E n g s pos c) -> tl A g (ctx_mark c) pos (fst (cfast E n g s pos c)).
Proof using Hco Hlay HE.
  induction n as [|n IH]; intros A g pos c Hg Hp Hc H; [exfalso; apply H; reflexivity|].
  assert (Hcol : is_layout A g -> loc_col (ctx_loc (update_loc c s pos)) = loc_col (locof pos)).
  { intros HL. pose proof (gall_node _ _ _ Hg) as [_ HL'].
    destruct (cs_col _ _ _ _ _ CS pos c (HL' HL) Hc Hp) as [_ K]. exact K. }
  pose proof (cs_upd _ _ _ _ _ CS pos pos c Hc ltac:(unfold len in *; lia)) as Hcu.
  destruct g; cbn [cfast] in *; try (apply ty_primitive; exact I); simpl in Hg; cbn [tick fst snd] in *.
  - (* fmap *) unfold fmap_cost in *. rewrite cone. apply ty_fmap. apply IH; [apply Hg|exact Hp|exact Hc|].
    eapply cends_l. exact H.
  - (* alt *) destruct Hg as (_ & Hg1 & Hg2). unfold alt_cost in *. unfold cends in H. cbn [snd] in H.
    pose proof (IH _ _ _ _ Hg1 Hp Hc (cends_l _ _ _ _ H)) as HT.
    destruct (snd (cfast E n g1 s pos c)) as [[o|e]|e|] eqn:Q.
    + pose proof (cpart _ _ _ _ _ _ Hg1 Hp Hc Q _ eq_refl) as D. rewrite (cbind_ret _ _ _ _ _ Q). cbn [fst cret].
      rewrite ?Nat.add_0_r, ?Nat.max_0_r. eapply ty_alt_one; [exact D| |exact HT]. intros l X; discriminate.
    + pose proof (cpart _ _ _ _ _ _ Hg1 Hp Hc Q _ eq_refl) as D. rewrite (cbind_ret _ _ _ _ _ Q) in *. cbn [fst snd] in *.
      cbn [dabs] in D. destruct (er_con e).
      * cbn [fst cret]. rewrite ?Nat.add_0_r, ?Nat.max_0_r. eapply ty_alt_one; [exact D| |exact HT]. intros l X; discriminate.
      * eapply ty_alt_both; [exact D|exact HT|].
        pose proof (IH _ _ _ _ Hg2 Hp Hc (cends_l _ _ _ _ H)) as HT2.
        destruct (snd (cfast E n g2 s pos c)) as [r|e2|] eqn:Q2.
        -- rewrite (cbind_ret _ _ _ _ _ Q2). cbn [fst].
           match goal with |- context[fst (if ?b then _ else _)] =>
             match goal with |- context[fst ?X] => match X with (if b then _ else _) =>
               assert (K : fst X = 0) by (destruct b; [reflexivity|]; destruct r; reflexivity); rewrite K end end end.
           rewrite ?Nat.add_0_r, ?Nat.max_0_r. exact HT2.
        -- rewrite (cbind_exn _ _ _ _ _ Q2). exact HT2.
        -- exfalso. apply H. unfold cbind. rewrite Q2. reflexivity.
    + pose proof (cpart _ _ _ _ _ _ Hg1 Hp Hc Q _ eq_refl) as D. rewrite (cbind_exn _ _ _ _ _ Q). cbn [fst].
      eapply ty_alt_one; [exact D| |exact HT]. intros l X; discriminate.
    + exfalso. apply H. unfold cbind. rewrite Q. reflexivity.
  - (* bind *) destruct Hg as (_ & Hg1 & Hg2). unfold bind_cost in *. unfold cends in H. cbn [snd] in H.
    pose proof (IH _ _ _ _ Hg1 Hp Hc (cends_l _ _ _ _ H)) as HT.
    destruct (snd (cfast E n g s pos c)) as [[o|e]|e|] eqn:Q.
    + pose proof (cpart _ _ _ _ _ _ Hg1 Hp Hc Q _ eq_refl) as D.
      destruct (cgood _ _ _ _ _ _ Hg1 Hp Hc Q) as (G1 & G2 & G3 & G4).
      rewrite (cbind_ret _ _ _ _ _ Q) in *. cbn [fst snd] in *. rewrite cone.
      eapply ty_bind_both; [exact D|exact HT|]. rewrite <- G4. apply IH; [apply Hg2|apply G1|exact G3|].
      eapply cends_l. exact H.
    + pose proof (cpart _ _ _ _ _ _ Hg1 Hp Hc Q _ eq_refl) as D. rewrite (cbind_ret _ _ _ _ _ Q). cbn [fst cret].
      rewrite ?Nat.add_0_r, ?Nat.max_0_r. eapply ty_bind_one; [exact D| |exact HT]. intros v j X; discriminate.
    + pose proof (cpart _ _ _ _ _ _ Hg1 Hp Hc Q _ eq_refl) as D. rewrite (cbind_exn _ _ _ _ _ Q). cbn [fst].
      eapply ty_bind_one; [exact D| |exact HT]. intros v j X; discriminate.
    + exfalso. apply H. unfold cbind. rewrite Q. reflexivity.
  - (* seq *) destruct Hg as (_ & Hg1 & Hg2). unfold seq_cost in *. unfold cends in H. cbn [snd] in H.
    pose proof (IH _ _ _ _ Hg1 Hp Hc (cends_l _ _ _ _ H)) as HT.
    destruct (snd (cfast E n g1 s pos c)) as [[o|e]|e|] eqn:Q.
    + pose proof (cpart _ _ _ _ _ _ Hg1 Hp Hc Q _ eq_refl) as D.
      destruct (cgood _ _ _ _ _ _ Hg1 Hp Hc Q) as (G1 & G2 & G3 & G4).
      rewrite (cbind_ret _ _ _ _ _ Q) in *. cbn [fst snd] in *. rewrite cone.
      eapply ty_seq_both; [exact D|exact HT|]. rewrite <- G4. apply IH; [exact Hg2|apply G1|exact G3|].
      eapply cends_l. exact H.
    + pose proof (cpart _ _ _ _ _ _ Hg1 Hp Hc Q _ eq_refl) as D. rewrite (cbind_ret _ _ _ _ _ Q). cbn [fst cret].
      rewrite ?Nat.add_0_r, ?Nat.max_0_r. eapply ty_seq_one; [exact D| |exact HT]. intros v j X; discriminate.
    + pose proof (cpart _ _ _ _ _ _ Hg1 Hp Hc Q _ eq_refl) as D. rewrite (cbind_exn _ _ _ _ _ Q). cbn [fst].
      eapply ty_seq_one; [exact D| |exact HT]. intros v j X; discriminate.
    + exfalso. apply H. unfold cbind. rewrite Q. reflexivity.
  - (* maybe *) apply ty_maybe. unfold maybe_cost in *. unfold cends in H. cbn [snd] in H.
    pose proof (IH _ _ _ _ (proj2 Hg) Hp Hc (cends_l _ _ _ _ H)) as HT.
    destruct (snd (cfast E n g s pos c)) as [[o|e]|e|] eqn:Q.
    + rewrite (cbind_ret _ _ _ _ _ Q). cbn [fst cret]. rewrite ?Nat.add_0_r, ?Nat.max_0_r. exact HT.
    + rewrite (cbind_ret _ _ _ _ _ Q). cbn [fst]. destruct (er_con e); cbn [fst cret]; rewrite ?Nat.add_0_r, ?Nat.max_0_r; exact HT.
    + rewrite (cbind_exn _ _ _ _ _ Q). exact HT.
    + exfalso. apply H. unfold cbind. rewrite Q. reflexivity.
  - (* many *) apply cmany; auto; [exact (proj2 Hg)|]. intros pos' c' H1 H2 H3. apply IH; auto. exact (proj2 Hg).
  - (* attempt *) apply ty_attempt. unfold attempt_cost in *. unfold cends in H. cbn [snd] in H.
    pose proof (IH _ _ _ _ (proj2 Hg) Hp Hc (cends_l _ _ _ _ H)) as HT.
    destruct (snd (cfast E n g s pos c)) as [[o|e]|e|] eqn:Q.
    + rewrite (cbind_ret _ _ _ _ _ Q). cbn [fst cret]. rewrite ?Nat.add_0_r, ?Nat.max_0_r. exact HT.
    + rewrite (cbind_ret _ _ _ _ _ Q). cbn [fst cret]. rewrite ?Nat.add_0_r, ?Nat.max_0_r. exact HT.
    + rewrite (cbind_exn _ _ _ _ _ Q). exact HT.
    + exfalso. apply H. unfold cbind. rewrite Q. reflexivity.
  - (* label *) apply ty_label. unfold label_cost in *. rewrite cone. apply IH; [exact (proj2 Hg)|exact Hp|exact Hc|].
    eapply cends_l. exact H.
  - apply ty_recover. apply IH; auto. exact (proj2 Hg).
  - apply ty_with. apply IH; auto. exact (proj2 Hg).
  - apply ty_withfn. apply IH; auto. exact (proj2 Hg).
  - (* block *) unfold block_cost in *. cbv zeta in *. rewrite cone. apply ty_block. rewrite <- Hcol by exact I.
    set (c1 := update_loc c s pos) in *.
    change (loc_col (ctx_loc c1)) with (ctx_mark (set_mark c1 (loc_col (ctx_loc c1)))).
    apply IH; auto; [exact (proj2 Hg)|]. eapply cends_l. exact H.
  - (* aligned *) unfold aligned_cost in *. cbv zeta in *. unfold cends in H. cbn [snd] in H.
    rewrite upd_mark', (Hcol I) in *. destruct (Z.eqb_spec (ctx_mark c) (loc_col (locof pos))) as [K|K].
    + apply ty_aligned; [congruence|]. rewrite <- (upd_mark' s c pos). apply IH; auto. exact (proj2 Hg).
    + cbn [fst cret]. apply ty_aligned_no. congruence.
  - (* indented *) unfold indented_cost in *. cbv zeta in *. unfold cends in H. cbn [snd] in H.
    rewrite upd_mark', (Hcol I) in *. destruct (Z.eqb_spec (ctx_mark c + delta) (loc_col (locof pos))) as [K|K].
    + rewrite cone. apply ty_indented; [congruence|].
      change (loc_col (locof pos)) with (ctx_mark (set_mark (update_loc c s pos) (loc_col (locof pos)))) at 1.
      apply IH; auto; [exact (proj2 Hg)|]. eapply cends_l. exact H.
    + cbn [fst cret]. apply ty_indented_no. congruence.
  - (* delay *) apply ty_delay. apply IH; auto.
Qed.
End CostTally.

Section DepthTally.
Context {T : Type} {V : nat -> Type}.
Variable E : env T V.
Variable s : list T.
Variable get : loc -> list T -> nat -> loc.
Variable locof : nat -> loc.
Variable lay : Prop.
Hypothesis Hco : cohere get s locof.
Hypothesis Hlay : lay -> exactpos s locof.
Hypothesis HE : forall d, gok lay (E d).
Let CS := pos_system s get locof lay Hco Hlay.
Let Cok := pos_Cok (T:=T) get locof.
Let len := List.length s.
Notation tl := (tally Nat.max E s locof).

Definition dends {A} (m : dm A) : Prop := snd m <> NoFuel.
Lemma dends_l A B (m : dm A) (f : A -> dm B) : dends (dbind m f) -> dends m.
Proof using. unfold dends, dbind. intros H K. rewrite K in H. apply H. reflexivity. Qed.
Lemma done_ A B (m : dm A) (f : A -> out B) : fst (dbind m (fun a => dret (f a))) = fst m.
Proof using. unfold dbind. destruct (snd m); [apply Nat.max_0_r|reflexivity|reflexivity]. Qed.
Lemma dbind_ret A B (m : dm A) (f : A -> dm B) a : snd m = Ret a -> dbind m f = (Nat.max (fst m) (fst (f a)), snd (f a)).
Proof using. unfold dbind. intros ->. reflexivity. Qed.
Lemma dbind_exn A B (m : dm A) (f : A -> dm B) e : snd m = Raise e -> dbind m f = (fst m, Raise e).
Proof using. unfold dbind. intros ->. reflexivity. Qed.

(** what is known of a part *)
Lemma dpart n A (g : gram T V A) pos c x : gok lay g -> pos <= len -> Cok pos c -> snd (dfast E n g s pos c) = x ->
  forall o, dabs x = Some o -> diag E s locof A g (ctx_mark c) pos o.
Proof using Hco Hlay HE.
  intros Hg Hp Hc <- o H. rewrite dfast_fast in H. eapply (diag_sound E s get locof lay Hco Hlay HE n); eauto.
Qed.
Lemma dgood n A (g : gram T V A) pos c o : gok lay g -> pos <= len -> Cok pos c -> snd (dfast E n g s pos c) = Ret (SOk o) ->
  pos <= ok_pos o <= len /\ ok_con o = Nat.ltb pos (ok_pos o) /\ Cok (ok_pos o) (ok_ctx o) /\ ctx_mark (ok_ctx o) = ctx_mark c.
Proof using Hco Hlay HE.
  intros Hg Hp Hc H. rewrite dfast_fast in H. eapply (DiagProofs.good_ok E s get locof lay Hco Hlay HE); eauto.
Qed.

Lemma dmany A (p : gram T V A) N : gok lay p ->
  (forall pos c, pos <= len -> Cok pos c -> dends (dfast E N p s pos c) -> tl A p (ctx_mark c) pos (fst (dfast E N p s pos c))) ->
  forall n con vs pos c, pos <= len -> Cok pos c -> dends (many_depth (dfast E N p) n con vs s pos c) ->
  tl _ (GMany p) (ctx_mark c) pos (S (fst (many_depth (dfast E N p) n con vs s pos c))).
Proof using Hco Hlay HE.
  intros Hg HF n. induction n as [|n IH]; intros con vs pos c Hp Hc H; [exfalso; apply H; reflexivity|].
  cbn [many_depth] in *. pose proof (HF _ _ Hp Hc (dends_l _ _ _ _ H)) as HT.
  destruct (snd (dfast E N p s pos c)) as [[o|e]|e|] eqn:Q.
  - pose proof (dpart _ _ _ _ _ _ Hg Hp Hc Q _ eq_refl) as D. cbn [dabs] in D.
    destruct (dgood _ _ _ _ _ _ Hg Hp Hc Q) as (G1 & G2 & G3 & G4).
    unfold dends in H. rewrite (dbind_ret _ _ _ _ _ Q) in *. cbn [fst snd] in *. destruct (ok_con o).
    + symmetry in G2. apply Nat.ltb_lt in G2. eapply ty_many_more; eauto.
      rewrite <- G4. apply IH; [lia|exact G3|exact H].
    + cbn [dret fst]. rewrite ?Nat.add_0_r, ?Nat.max_0_r. eapply ty_many_last; [exact D| |exact HT].
      intros v j X K Hlt. injection K as <- <- <-. apply Nat.ltb_lt in Hlt. congruence.
  - pose proof (dpart _ _ _ _ _ _ Hg Hp Hc Q _ eq_refl) as D. rewrite (dbind_ret _ _ _ _ _ Q). cbn [fst snd].
    cbn [dabs] in D. destruct (er_con e); cbn [fst dret]; rewrite ?Nat.add_0_r, ?Nat.max_0_r;
      (eapply ty_many_last; [exact D| |exact HT]; intros v j X; discriminate).
  - pose proof (dpart _ _ _ _ _ _ Hg Hp Hc Q _ eq_refl) as D. rewrite (dbind_exn _ _ _ _ _ Q). cbn [fst snd].
    eapply ty_many_last; [exact D| |exact HT]. intros v j X; discriminate.
  - exfalso. apply H. unfold dbind. rewrite Q. reflexivity.
Qed.

Theorem depth_tally n : forall A (g : gram T V A) pos c, gok lay g -> pos <= len -> Cok pos c ->
  dends (dfast E n g s pos c) -> tl A g (ctx_mark c) pos (fst (dfast E n g s pos c)).
Proof using Hco Hlay HE.
  induction n as [|n IH]; intros A g pos c Hg Hp Hc H; [exfalso; apply H; reflexivity|].
  assert (Hcol : is_layout A g -> loc_col (ctx_loc (update_loc c s pos)) = loc_col (locof pos)).
  { intros HL. pose proof (gall_node _ _ _ Hg) as [_ HL'].
    destruct (cs_col _ _ _ _ _ CS pos c (HL' HL) Hc Hp) as [_ K]. exact K. }
  pose proof (cs_upd _ _ _ _ _ CS pos pos c Hc ltac:(unfold len in *; lia)) as Hcu.
  destruct g; cbn [dfast] in *; try (apply ty_primitive; exact I); simpl in Hg; cbn [nest fst snd] in *.
  - (* fmap *) unfold fmap_depth in *. rewrite done_. apply ty_fmap. apply IH; [apply Hg|exact Hp|exact Hc|].
    eapply dends_l. exact H.
  - (* alt *) destruct Hg as (_ & Hg1 & Hg2). unfold alt_depth in *. unfold dends in H. cbn [snd] in H.
    pose proof (IH _ _ _ _ Hg1 Hp Hc (dends_l _ _ _ _ H)) as HT.
    destruct (snd (dfast E n g1 s pos c)) as [[o|e]|e|] eqn:Q.
    + pose proof (dpart _ _ _ _ _ _ Hg1 Hp Hc Q _ eq_refl) as D. rewrite (dbind_ret _ _ _ _ _ Q). cbn [fst dret].
      rewrite ?Nat.add_0_r, ?Nat.max_0_r. eapply ty_alt_one; [exact D| |exact HT]. intros l X; discriminate.
    + pose proof (dpart _ _ _ _ _ _ Hg1 Hp Hc Q _ eq_refl) as D. rewrite (dbind_ret _ _ _ _ _ Q) in *. cbn [fst snd] in *.
      cbn [dabs] in D. destruct (er_con e).
      * cbn [fst dret]. rewrite ?Nat.add_0_r, ?Nat.max_0_r. eapply ty_alt_one; [exact D| |exact HT]. intros l X; discriminate.
      * eapply ty_alt_both; [exact D|exact HT|].
        pose proof (IH _ _ _ _ Hg2 Hp Hc (dends_l _ _ _ _ H)) as HT2.
        destruct (snd (dfast E n g2 s pos c)) as [r|e2|] eqn:Q2.
        -- rewrite (dbind_ret _ _ _ _ _ Q2). cbn [fst].
           match goal with |- context[fst (if ?b then _ else _)] =>
             match goal with |- context[fst ?X] => match X with (if b then _ else _) =>
               assert (K : fst X = 0) by (destruct b; [reflexivity|]; destruct r; reflexivity); rewrite K end end end.
           rewrite ?Nat.add_0_r, ?Nat.max_0_r. exact HT2.
        -- rewrite (dbind_exn _ _ _ _ _ Q2). exact HT2.
        -- exfalso. apply H. unfold dbind. rewrite Q2. reflexivity.
    + pose proof (dpart _ _ _ _ _ _ Hg1 Hp Hc Q _ eq_refl) as D. rewrite (dbind_exn _ _ _ _ _ Q). cbn [fst].
      eapply ty_alt_one; [exact D| |exact HT]. intros l X; discriminate.
    + exfalso. apply H. unfold dbind. rewrite Q. reflexivity.
  - (* bind *) destruct Hg as (_ & Hg1 & Hg2). unfold bind_depth in *. unfold dends in H. cbn [snd] in H.
    pose proof (IH _ _ _ _ Hg1 Hp Hc (dends_l _ _ _ _ H)) as HT.
    destruct (snd (dfast E n g s pos c)) as [[o|e]|e|] eqn:Q.
    + pose proof (dpart _ _ _ _ _ _ Hg1 Hp Hc Q _ eq_refl) as D.
      destruct (dgood _ _ _ _ _ _ Hg1 Hp Hc Q) as (G1 & G2 & G3 & G4).
      rewrite (dbind_ret _ _ _ _ _ Q) in *. cbn [fst snd] in *. rewrite done_.
      eapply ty_bind_both; [exact D|exact HT|]. rewrite <- G4. apply IH; [apply Hg2|apply G1|exact G3|].
      eapply dends_l. exact H.
    + pose proof (dpart _ _ _ _ _ _ Hg1 Hp Hc Q _ eq_refl) as D. rewrite (dbind_ret _ _ _ _ _ Q). cbn [fst dret].
      rewrite ?Nat.add_0_r, ?Nat.max_0_r. eapply ty_bind_one; [exact D| |exact HT]. intros v j X; discriminate.
    + pose proof (dpart _ _ _ _ _ _ Hg1 Hp Hc Q _ eq_refl) as D. rewrite (dbind_exn _ _ _ _ _ Q). cbn [fst].
      eapply ty_bind_one; [exact D| |exact HT]. intros v j X; discriminate.
    + exfalso. apply H. unfold dbind. rewrite Q. reflexivity.
  - (* seq *) destruct Hg as (_ & Hg1 & Hg2). unfold seq_depth in *. unfold dends in H. cbn [snd] in H.
    pose proof (IH _ _ _ _ Hg1 Hp Hc (dends_l _ _ _ _ H)) as HT.
    destruct (snd (dfast E n g1 s pos c)) as [[o|e]|e|] eqn:Q.
    + pose proof (dpart _ _ _ _ _ _ Hg1 Hp Hc Q _ eq_refl) as D.
      destruct (dgood _ _ _ _ _ _ Hg1 Hp Hc Q) as (G1 & G2 & G3 & G4).
      rewrite (dbind_ret _ _ _ _ _ Q) in *. cbn [fst snd] in *. rewrite done_.
      eapply ty_seq_both; [exact D|exact HT|]. rewrite <- G4. apply IH; [exact Hg2|apply G1|exact G3|].
      eapply dends_l. exact H.
    + pose proof (dpart _ _ _ _ _ _ Hg1 Hp Hc Q _ eq_refl) as D. rewrite (dbind_ret _ _ _ _ _ Q). cbn [fst dret].
      rewrite ?Nat.add_0_r, ?Nat.max_0_r. eapply ty_seq_one; [exact D| |exact HT]. intros v j X; discriminate.
    + pose proof (dpart _ _ _ _ _ _ Hg1 Hp Hc Q _ eq_refl) as D. rewrite (dbind_exn _ _ _ _ _ Q). cbn [fst].
      eapply ty_seq_one; [exact D| |exact HT]. intros v j X; discriminate.
    + exfalso. apply H. unfold dbind. rewrite Q. reflexivity.
  - (* maybe *) apply ty_maybe. unfold maybe_depth in *. unfold dends in H. cbn [snd] in H.
    pose proof (IH _ _ _ _ (proj2 Hg) Hp Hc (dends_l _ _ _ _ H)) as HT.
    destruct (snd (dfast E n g s pos c)) as [[o|e]|e|] eqn:Q.
    + rewrite (dbind_ret _ _ _ _ _ Q). cbn [fst dret]. rewrite ?Nat.add_0_r, ?Nat.max_0_r. exact HT.
    + rewrite (dbind_ret _ _ _ _ _ Q). cbn [fst]. destruct (er_con e); cbn [fst dret]; rewrite ?Nat.add_0_r, ?Nat.max_0_r; exact HT.
    + rewrite (dbind_exn _ _ _ _ _ Q). exact HT.
    + exfalso. apply H. unfold dbind. rewrite Q. reflexivity.
  - (* many *) apply dmany; auto; [exact (proj2 Hg)|]. intros pos' c' H1 H2 H3. apply IH; auto. exact (proj2 Hg).
  - (* attempt *) apply ty_attempt. unfold attempt_depth in *. unfold dends in H. cbn [snd] in H.
    pose proof (IH _ _ _ _ (proj2 Hg) Hp Hc (dends_l _ _ _ _ H)) as HT.
    destruct (snd (dfast E n g s pos c)) as [[o|e]|e|] eqn:Q.
    + rewrite (dbind_ret _ _ _ _ _ Q). cbn [fst dret]. rewrite ?Nat.add_0_r, ?Nat.max_0_r. exact HT.
    + rewrite (dbind_ret _ _ _ _ _ Q). cbn [fst dret]. rewrite ?Nat.add_0_r, ?Nat.max_0_r. exact HT.
    + rewrite (dbind_exn _ _ _ _ _ Q). exact HT.
    + exfalso. apply H. unfold dbind. rewrite Q. reflexivity.
  - (* label *) apply ty_label. unfold label_depth in *. rewrite done_. apply IH; [exact (proj2 Hg)|exact Hp|exact Hc|].
    eapply dends_l. exact H.
  - apply ty_recover. apply IH; auto. exact (proj2 Hg).
  - apply ty_with. apply IH; auto. exact (proj2 Hg).
  - apply ty_withfn. apply IH; auto. exact (proj2 Hg).
  - (* block *) unfold block_depth in *. cbv zeta in *. rewrite done_. apply ty_block. rewrite <- Hcol by exact I.
    set (c1 := update_loc c s pos) in *.
    change (loc_col (ctx_loc c1)) with (ctx_mark (set_mark c1 (loc_col (ctx_loc c1)))).
    apply IH; auto; [exact (proj2 Hg)|]. eapply dends_l. exact H.
  - (* aligned *) unfold aligned_depth in *. cbv zeta in *. unfold dends in H. cbn [snd] in H.
    rewrite upd_mark', (Hcol I) in *. destruct (Z.eqb_spec (ctx_mark c) (loc_col (locof pos))) as [K|K].
    + apply ty_aligned; [congruence|]. rewrite <- (upd_mark' s c pos). apply IH; auto. exact (proj2 Hg).
    + cbn [fst dret]. apply ty_aligned_no. congruence.
  - (* indented *) unfold indented_depth in *. cbv zeta in *. unfold dends in H. cbn [snd] in H.
    rewrite upd_mark', (Hcol I) in *. destruct (Z.eqb_spec (ctx_mark c + delta) (loc_col (locof pos))) as [K|K].
    + rewrite done_. apply ty_indented; [congruence|].
      change (loc_col (locof pos)) with (ctx_mark (set_mark (update_loc c s pos) (loc_col (locof pos)))) at 1.
      apply IH; auto; [exact (proj2 Hg)|]. eapply dends_l. exact H.
    + cbn [fst dret]. apply ty_indented_no. congruence.
  - (* delay *) apply ty_delay. apply IH; auto.
Qed.
End DepthTally.
