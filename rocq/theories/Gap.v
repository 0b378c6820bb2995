(** Proofs for C77: the way of mending an input with a gap *)
From Verif Require Import Fuel ApiSpec ApiProofs Locations PegSpec PropsPeg DiagSpec DiagProofs RecProofs PropsTerm PropsTotal YamlishErr LL PropsLL Mend Patch Miss.
From Verif Require Export GapSpec MendSpec.
From Coq Require Import Lia.
Import ListNotations.

Section Gap.
Context {T : Type} {V : nat -> Type}.
Variable E : env T V.
Notation gram := (gram T V).
Variables (s : list T) (get : loc -> list T -> nat -> loc) (at_ : nat -> loc).
Hypothesis HE : wf_env E.
Hypothesis Hco : cohere get s at_.
Notation lay := (exactpos s at_).
Hypothesis HG : forall d, gok lay (E d).
Variable F : nat -> option T -> Prop.
Hypothesis HF : forall d, ll1 E F (E d) (F d).
Notation len := (List.length s).
Notation peg := (peg E s (fun i => loc_col (at_ i))).
Notation fits := (everywhere E (fit E s at_)).
Variables (l : string) (tail : list T) (ins : Z).
Hypothesis Hins : (0 < ins)%Z.

Notation nope := (Miss.nope E s get at_ HE Hco HG).
Notation rd := (Miss.rd E s get at_ HE Hco HG F HF).
Notation stop := (Miss.stop E s get at_ HE Hco HG F HF).

Lemma gap_viable A (g : gram A) w1 w2 v : gap E l A g w1 w2 v -> everywhere E (completable_node E) g -> viable E g w1.
Proof using Type.
  induction 1; intros Hf.
  - destruct H as (w & u & Hw). exists w, u. apply la_with. exact Hw.
  - destruct H as (w & u & Hw). exists w, u. apply la_withfn. exact Hw.
  - destruct (IHgap (ev_fmap _ _ _ _ _ _ Hf)) as (w & u & Hw). destruct (ev_here E _ _ _ Hf _ _ Hw) as [u' Hu].
    exists w, u'. eapply la_fmap; eauto.
  - apply vb_alt_l. apply IHgap. eapply ev_alt_l; eauto.
  - apply vb_alt_r. apply IHgap. eapply ev_alt_r; eauto.
  - apply vb_bind_l; [apply (ev_here E _ _ _ Hf)|]. apply IHgap. eapply ev_bind_l; eauto.
  - eapply vb_bind_r; eauto. apply IHgap. eapply ev_bind_r; eauto.
  - apply vb_seq_l; [apply (ev_here E _ _ _ Hf)|]. apply IHgap. eapply ev_seq_l; eauto.
  - eapply vb_seq_r; eauto. apply IHgap. eapply ev_seq_r; eauto.
  - apply vb_maybe. apply IHgap. eapply ev_maybe; eauto.
  - apply vb_many_l. apply IHgap. eapply ev_many; eauto.
  - eapply vb_many_r; eauto.
  - destruct (IHgap (ev_label _ _ _ _ _ Hf)) as (w & u & Hw). exists w, u. apply la_label. exact Hw.
  - destruct (IHgap (ev_recover _ _ _ _ Hf)) as (w & u & Hw). exists w, u. apply la_recover. exact Hw.
  - destruct (IHgap (ev_with _ _ _ _ _ _ Hf)) as (w & u & Hw). exists w, u. apply la_with. exact Hw.
  - destruct (IHgap (ev_withfn _ _ _ _ _ _ Hf)) as (w & u & Hw). exists w, u. apply la_withfn. exact Hw.
  - destruct (IHgap (ev_delay _ _ _ Hf)) as (w & u & Hw). exists w, u. apply la_delay. exact Hw.
Qed.

(** a parser that does not start here leaves the question open in recovery mode too *)
Lemma unsettled A (p : gram A) m i left : fits p -> i <= len -> (0 <= left)%Z -> peg A p m i (PFail false) ->
  exists o, rsem E s at_ A p m i ins (Some left) o /\ ~ settled o.
Proof using HE HG Hco Hins.
  intros H Hi Hl R. destruct (fit_all _ _ _ _ _ H) as (H1 & H2 & H3).
  assert (Q : everywhere E (quiet_node E) p) by (intros B q Ho; apply (H B q Ho)).
  assert (G : guarded E p) by (apply guarded_everywhere; intros B q Ho; apply (H B q Ho)).
  set (c := Ctx (T:=T) m (at_ i) get).
  assert (Hc : pos_Cok (T:=T) get at_ i c) by (split; [reflexivity|right; exists i; auto]).
  destruct (full_term E HE s ins ltac:(lia) len i ltac:(lia) Hi (S (Z.to_nat left)) (Some left) ltac:(cbn; lia)
    ltac:(intros z Hz; injection Hz as <-; exact Hl) A p (adm_of E HE _ p H1 (quiet_halting E _ _ Q) G) c) as [n Hn].
  destruct (peg_complete E s get at_ lay Hco (fun x => x) HG A p m i _ R H3 Hi c Hc eq_refl) as [n' Hn'].
  apply abs_fail in Hn' as (e & Hn' & He).
  set (N := Nat.max n n').
  assert (Ff : fast E N p s i c = Ret (SErr e)).
  { rewrite <- Hn'. symmetry. apply fast_agree; [congruence|]. intros K.
    destruct (fast_lef E n' N ltac:(unfold N; lia) A p s i c) as [M|M]; congruence. }
  destruct (full E N p s i c ins (Some left)) as [r|x|] eqn:K.
  - destruct (steady E N A p s i c ins (Some left) e r) as [S1 S2]; auto.
    { intros B q Ho. specialize (H B q Ho) as (_ & _ & O & _). destruct q; cbn in *; tauto. }
    exists (rab r). split; [|destruct r as [o|e'|rc]; cbn in *; [destruct (S2 o eq_refl)|congruence|congruence]].
    apply (rec_sound E s get at_ lay Hco (fun x => x) HG N A p i c ins (Some left) _ H3 Hi Hc). rewrite K. reflexivity.
  - exfalso. apply (full_silent E HE s N A p (calm_of E HE _ p H1 Q) i c ins (Some left) Hi x K).
  - exfalso. destruct (full_lef E n N ltac:(unfold N; lia) A p s i c ins (Some left)) as [M|M]; congruence.
Qed.

Definition good {A} (w1 : list T) (y : mended A) (p : nat) (v : A) (e : nat) : Prop :=
  y_cost y = 1 /\ y_val y = v /\ y_pos y = e /\ y_ops y = [(Insert l, at_ p)] /\ (w1 = [] -> y_auto y = false).
Lemma good_with A B w (y : mended A) p v e (u : B) : good w y p v e -> good w (y_with y u) p u e.
Proof. intros (H1 & H2 & H3 & H4 & H5). repeat split; auto. Qed.
Lemma good_read A B C (f : A -> B -> C) w (y : mended A) p v e (u : B) k : good w y p v e -> good w (y_then_read ins f y u k) p (f v u) k.
Proof. intros (H1 & <- & H3 & H4 & H5). repeat split; auto. Qed.

Lemma not_first A (p : gram A) i : skipn i s = tail -> noticed E p [] tail -> ~ first_is E p (nth_error s i).
Proof.
  intros Hs Hn. rewrite <- hd_skipn, Hs. destruct tail as [|t r]; cbn in *; [tauto|]. intros H. apply Hn. apply vb_first. exact H.
Qed.

Lemma many_begun A (g : gram A) w1 w2 v : gap E l A g w1 w2 v ->
  match g with GMany p => ~ nullable E p -> w1 <> [] | _ => True end.
Proof using Type.
  induction 1; cbn; auto. intros N Q. destruct w as [|t w]; [|discriminate]. apply N. exists v. exact H.
Qed.
Lemma gap_first A (g : gram A) t w1 w2 v : gap E l A g (t :: w1) w2 v -> everywhere E (completable_node E) g -> first E g t.
Proof using Type. intros H C. destruct (gap_viable _ _ _ _ _ H C) as (w & u & Hw). exists (w1 ++ w), u. exact Hw. Qed.

(** the parser does not start where the part is missing *)
Lemma gap_open A (g : gram A) w1 w2 v : gap E l A g w1 w2 v -> w1 = [] -> forall m ii K, fits g -> ii <= len ->
  ll1 E F g K -> skipn ii s = tail -> noticed E g [] tail -> peg A g m ii (PFail false).
Proof using HE HG Hco HF.
  induction 1; intros HW m ii K Hfit Hi HL Hs Hn; cbn [ll1] in HL; try (destruct w1; [|discriminate]); try congruence.
  - apply pg_with. apply nope; eauto using ev_with. apply not_first; auto.
    apply (noticed_sub _ _ _ _ _ [] [] tail Hn). intros t (w' & u & L). exists w', u. apply la_with. exact L.
  - apply pg_withfn. apply nope; eauto using ev_withfn. apply not_first; auto.
    apply (noticed_sub _ _ _ _ _ [] [] tail Hn). intros t (w' & u & L). exists w', u. apply la_withfn. exact L.
  - apply pg_fmap_fail. eapply IHgap; eauto using ev_fmap. apply (noticed_sub _ _ _ _ _ [] [] tail Hn). intros t (w' & u & L).
    destruct (proj1 (proj2 (proj1 (ev_here E _ _ _ Hfit))) _ _ L) as [u' Hu]. exists w', u'. cbn. eapply la_fmap; eauto.
  - destruct HL as (L1 & L2 & L3 & L4). destruct H0 as [H0|H0]; [congruence|]. apply pg_alt_r.
    + eapply IHgap; eauto using ev_alt_l. apply (noticed_sub _ _ _ _ _ [] [] tail Hn). intros t. apply vb_alt_l.
    + apply nope; eauto using ev_alt_r. apply not_first; auto. apply (noticed_sub _ _ _ _ _ [] [] tail Hn). intros t. apply vb_alt_r.
  - destruct HL as (L1 & L2 & L3 & L4). apply pg_alt_r.
    + apply nope; eauto using ev_alt_l. apply not_first; auto. apply (noticed_sub _ _ _ _ _ [] [] tail Hn). intros t. apply vb_alt_l.
    + eapply IHgap; eauto using ev_alt_r. apply (noticed_sub _ _ _ _ _ [] [] tail Hn). intros t. apply vb_alt_r.
  - destruct HL as (L1 & L2). apply pg_bind_fail. eapply IHgap; eauto using ev_bind_l.
    apply (noticed_sub _ _ _ _ _ [] [] tail Hn). intros t. apply vb_bind_l. apply (proj1 (proj2 (proj1 (ev_here E _ _ _ Hfit)))).
  - destruct w as [|z w]; [|discriminate]. destruct HL as (L1 & L2).
    assert (R : peg A p m ii (PSucc v (ii + List.length (@nil T)))).
    { eapply stop; eauto using ev_bind_l. apply (noticed_sub _ _ _ _ _ [] [] tail Hn). intros t.
      apply vb_bind_l. apply (proj1 (proj2 (proj1 (ev_here E _ _ _ Hfit)))). }
    cbn in R. rewrite Nat.add_0_r in R.
    assert (R' : peg B (f v) m ii (PFail false)).
    { eapply IHgap; eauto using ev_bind_r. apply (noticed_sub _ _ _ _ _ [] [] tail Hn). intros t. apply (vb_bind_r E _ _ p f [] v). exact H. }
    pose proof (pg_bind E s _ A B p f m ii v ii _ R R') as X. cbn [after on_value] in X. rewrite Nat.ltb_irrefl in X. exact X.
  - destruct HL as (L1 & L2). apply pg_seq_fail. eapply IHgap; eauto using ev_seq_l.
    apply (noticed_sub _ _ _ _ _ [] [] tail Hn). intros t. apply vb_seq_l. apply (proj1 (proj2 (proj1 (ev_here E _ _ _ Hfit)))).
  - destruct w as [|z w]; [|discriminate]. destruct HL as (L1 & L2).
    assert (R : peg A p m ii (PSucc v (ii + List.length (@nil T)))).
    { eapply stop; eauto using ev_seq_l. apply (noticed_sub _ _ _ _ _ [] [] tail Hn). intros t.
      apply vb_seq_l. apply (proj1 (proj2 (proj1 (ev_here E _ _ _ Hfit)))). }
    cbn in R. rewrite Nat.add_0_r in R.
    assert (R' : peg B q m ii (PFail false)).
    { eapply IHgap; eauto using ev_seq_r. apply (noticed_sub _ _ _ _ _ [] [] tail Hn). intros t. eapply (vb_seq_r E _ _ _ p q merge []). exact H. }
    pose proof (pg_seq E s _ A B C p q merge m ii v ii _ R R') as X. cbn [after on_value] in X. rewrite Nat.ltb_irrefl in X. exact X.
  - exfalso. apply (many_begun _ _ _ _ _ H0); [apply HL|]. destruct w; [exact HW|discriminate].
  - apply pg_label. eapply IHgap; eauto using ev_label. apply (noticed_sub _ _ _ _ _ [] [] tail Hn). intros t (w' & u & L). exists w', u. apply la_label. exact L.
  - apply pg_recover. eapply IHgap; eauto using ev_recover. apply (noticed_sub _ _ _ _ _ [] [] tail Hn). intros t (w' & u & L). exists w', u. apply la_recover. exact L.
  - apply pg_with. eapply IHgap; eauto using ev_with. apply (noticed_sub _ _ _ _ _ [] [] tail Hn). intros t (w' & u & L). exists w', u. apply la_with. exact L.
  - apply pg_withfn. eapply IHgap; eauto using ev_withfn. apply (noticed_sub _ _ _ _ _ [] [] tail Hn). intros t (w' & u & L). exists w', u. apply la_withfn. exact L.
  - apply pg_delay. eapply IHgap; eauto using ev_delay. apply (noticed_sub _ _ _ _ _ [] [] tail Hn). intros t (w' & u & L). exists w', u. apply la_delay. exact L.
Qed.
Theorem gap_mend A (g : gram A) w1 w2 v : gap E l A g w1 w2 v -> forall m ii K rest rem, fits g -> ii <= len ->
  ll1 E F g K -> skipn ii s = w1 ++ tail -> tail = w2 ++ rest -> K (hd_error rest) -> noticed E g w1 tail ->
  (w1 = [] -> exists left, rem = Some left /\ (0 < left)%Z) ->
  exists y, mend E s at_ A g m ii ins rem y /\
    good w1 y (ii + List.length w1) v (ii + List.length w1 + List.length w2).
Proof using All.
  induction 1; intros m ii K rest rem Hfit Hi HL Hs Ht HK Hn Hr; cbn [ll1] in HL.
  - destruct (Hr eq_refl) as (left & -> & Hl). cbn [List.length app] in *. rewrite !Nat.add_0_r.
    assert (N : noticed E p [] tail).
    { apply (noticed_sub _ _ _ _ _ [] [] tail Hn). intros t (w' & u & L). exists w', u. apply la_with. exact L. }
    destruct (unsettled A p m ii left) as (o & Ho & Ns); eauto using ev_with; [lia| |].
    { apply nope; eauto using ev_with. apply not_first; auto. }
    exists (y_insert false left v ii (at_ ii) l). split; [eapply md_with_insert; eauto; lia|]. repeat split.
  - destruct (Hr eq_refl) as (left & -> & Hl). cbn [List.length app] in *. rewrite !Nat.add_0_r.
    assert (N : noticed E p [] tail).
    { apply (noticed_sub _ _ _ _ _ [] [] tail Hn). intros t (w' & u & L). exists w', u. apply la_withfn. exact L. }
    destruct (unsettled A p m ii left) as (o & Ho & Ns); eauto using ev_withfn; [lia| |].
    { apply nope; eauto using ev_withfn. apply not_first; auto. }
    exists (y_insert false left v ii (at_ ii) (lab v)). split; [eapply md_withfn_insert; eauto; lia|]. repeat split. cbn. congruence.
  - (* fmap *) destruct (IHgap m ii K rest rem) as (y & My & Gy); eauto using ev_fmap.
    { apply (noticed_sub _ _ _ _ _ [] w1 tail Hn). intros t (w' & u & L).
      destruct (proj1 (proj2 (proj1 (ev_here E _ _ _ Hfit))) _ _ L) as [u' Hu]. exists w', u'. cbn. eapply la_fmap; eauto. }
    exists (y_with y v'). split; [|eapply good_with; eauto]. apply md_fmap; auto. destruct Gy as (_ & -> & _). auto.
  - (* alt *) destruct HL as (L1 & L2 & L3 & L4).
    assert (N : noticed E p w1 tail).
    { apply (noticed_sub _ _ _ _ _ [] w1 tail Hn). intros t. apply vb_alt_l. }
    destruct w1 as [|t w1].
    + destruct (Hr eq_refl) as (left & -> & Hl). destruct H0 as [H0|H0]; [congruence|].
      destruct (IHgap m ii K rest (Some left)) as (y & My & Gy); eauto using ev_alt_l.
      exists y. split; auto. apply md_alt_first; auto; [eapply gap_open; eauto using ev_alt_l|].
      apply nope; eauto using ev_alt_r. apply not_first; auto. apply (noticed_sub _ _ _ _ _ [] [] tail Hn). intros t. apply vb_alt_r.
    + destruct (IHgap m ii K rest None) as (y & My & Gy); eauto using ev_alt_l; [congruence|].
      exists y. split; auto. apply md_alt_l. auto.
  - destruct HL as (L1 & L2 & L3 & L4).
    assert (N : noticed E q w1 tail).
    { apply (noticed_sub _ _ _ _ _ [] w1 tail Hn). intros t. apply vb_alt_r. }
    destruct w1 as [|t w1].
    + destruct (Hr eq_refl) as (left & -> & Hl).
      destruct (IHgap m ii K rest (Some left)) as (y & My & Gy); eauto using ev_alt_r.
      exists y. split; auto. apply md_alt_later; auto.
      * apply nope; eauto using ev_alt_l. apply not_first; auto. apply (noticed_sub _ _ _ _ _ [] [] tail Hn). intros t. apply vb_alt_l.
      * eapply gap_open; eauto using ev_alt_r.
      * left. apply Gy. reflexivity.
    + destruct (IHgap m ii K rest None) as (y & My & Gy); eauto using ev_alt_r; [congruence|].
      exists y. split; auto. apply md_alt_r; auto. apply nope; eauto using ev_alt_l.
      rewrite <- hd_skipn, Hs. cbn. intros Q. apply (L4 (Some t) Q). left.
      eapply gap_first; eauto. intros C q' Ho. apply (ev_alt_r _ _ _ _ _ Hfit C q' Ho).
  - (* bind *) destruct HL as (L1 & L2).
    assert (Ht' : tail = w2 ++ (w ++ rest)) by (rewrite Ht, <- app_assoc; reflexivity).
    destruct (IHgap m ii (fun o => exists w v, sentence E p w v /\ starts E (f v) K o) (w ++ rest) rem) as (y & My & Gy); eauto using ev_bind_l.
    { exists u, v. split; auto. eapply starts_hd; eauto. }
    { apply (noticed_sub _ _ _ _ _ [] w1 tail Hn). intros t. apply vb_bind_l. apply (proj1 (proj2 (proj1 (ev_here E _ _ _ Hfit)))). }
    assert (Hs' : skipn ii s = (w1 ++ w2) ++ (w ++ rest)) by (rewrite Hs, Ht', <- !app_assoc; reflexivity).
    destruct (skipn_next _ _ _ _ Hi Hs') as [Hs2 Hi2]. rewrite !app_length, !Nat.add_assoc in Hs2, Hi2.
    pose proof Gy as (G1 & G2 & G3 & G4).
    assert (R : peg B (f v) m (y_pos y) (PSucc v' (y_pos y + List.length w))).
    { rewrite G3. eapply rd; eauto using ev_bind_r. }
    eexists. split; [eapply md_bind_1; [exact My|rewrite G2; exact R]|].
    eapply (good_read _ _ _ (fun _ w => w)) in Gy. rewrite app_length, Nat.add_assoc, <- G3. exact Gy.
  - destruct HL as (L1 & L2). rewrite <- app_assoc in Hs. destruct (skipn_next _ _ _ _ Hi Hs) as [Hs2 Hi2].
    assert (R : peg A p m ii (PSucc v (ii + List.length w))).
    { destruct w1 as [|t w1].
      - eapply stop; eauto using ev_bind_l. rewrite app_nil_r in Hn. apply (noticed_sub _ _ _ _ _ [] w tail Hn). intros t.
        apply vb_bind_l. apply (proj1 (proj2 (proj1 (ev_here E _ _ _ Hfit)))).
      - eapply rd; [eapply ev_bind_l; eauto|auto|exact L1|exact Hs| |exact H]. exists w, v. split; auto. left.
        eapply gap_first; eauto. intros C q' Ho. apply (ev_bind_r _ _ _ _ _ _ _ Hfit C q' Ho). }
    destruct (IHgap m (ii + List.length w) K rest (if Nat.ltb ii (ii + List.length w) then Some ins else rem)) as (y & My & Gy); eauto using ev_bind_r.
    { apply (noticed_sub _ _ _ _ _ w w1 tail Hn). intros t. apply vb_bind_r. auto. }
    { intros ->. destruct w as [|z w]; cbn [List.length].
      - rewrite Nat.add_0_r, Nat.ltb_irrefl. apply Hr. reflexivity.
      - replace (Nat.ltb ii (ii + S (List.length w))) with true by (symmetry; apply Nat.ltb_lt; lia). eauto. }
    exists y. split; [eapply md_bind_2; eauto|]. rewrite app_length, Nat.add_assoc.
    destruct Gy as (G1 & G2 & G3 & G4 & G5). repeat split; auto. intros Q. apply G5. destruct w1; [reflexivity|destruct w; discriminate].
  - (* seq *) destruct HL as (L1 & L2).
    assert (Ht' : tail = w2 ++ (w ++ rest)) by (rewrite Ht, <- app_assoc; reflexivity).
    destruct (IHgap m ii (starts E q K) (w ++ rest) rem) as (y & My & Gy); eauto using ev_seq_l.
    { eapply starts_hd; eauto. }
    { apply (noticed_sub _ _ _ _ _ [] w1 tail Hn). intros t. apply vb_seq_l. apply (proj1 (proj2 (proj1 (ev_here E _ _ _ Hfit)))). }
    assert (Hs' : skipn ii s = (w1 ++ w2) ++ (w ++ rest)) by (rewrite Hs, Ht', <- !app_assoc; reflexivity).
    destruct (skipn_next _ _ _ _ Hi Hs') as [Hs2 Hi2]. rewrite !app_length, !Nat.add_assoc in Hs2, Hi2.
    pose proof Gy as (G1 & G2 & G3 & G4).
    assert (R : peg B q m (y_pos y) (PSucc v' (y_pos y + List.length w))).
    { rewrite G3. eapply rd; eauto using ev_seq_r. }
    eexists. split; [eapply md_seq_1; [exact My|exact R]|].
    eapply (good_read _ _ _ merge) in Gy. rewrite app_length, Nat.add_assoc, <- G3. exact Gy.
  - destruct HL as (L1 & L2). rewrite <- app_assoc in Hs. destruct (skipn_next _ _ _ _ Hi Hs) as [Hs2 Hi2].
    assert (R : peg A p m ii (PSucc v (ii + List.length w))).
    { destruct w1 as [|t w1].
      - eapply stop; eauto using ev_seq_l. rewrite app_nil_r in Hn. apply (noticed_sub _ _ _ _ _ [] w tail Hn). intros t.
        apply vb_seq_l. apply (proj1 (proj2 (proj1 (ev_here E _ _ _ Hfit)))).
      - eapply rd; [eapply ev_seq_l; eauto|auto|exact L1|exact Hs| |exact H]. left.
        eapply gap_first; eauto. intros C' q' Ho. apply (ev_seq_r _ _ _ _ _ _ _ _ Hfit C' q' Ho). }
    destruct (IHgap m (ii + List.length w) K rest (if Nat.ltb ii (ii + List.length w) then Some ins else rem)) as (y & My & Gy); eauto using ev_seq_r.
    { apply (noticed_sub _ _ _ _ _ w w1 tail Hn). intros t. eapply vb_seq_r. exact H. }
    { intros ->. destruct w as [|z w]; cbn [List.length].
      - rewrite Nat.add_0_r, Nat.ltb_irrefl. apply Hr. reflexivity.
      - replace (Nat.ltb ii (ii + S (List.length w))) with true by (symmetry; apply Nat.ltb_lt; lia). eauto. }
    exists (y_with y (merge v (y_val y))). split; [eapply md_seq_2; eauto|]. rewrite app_length, Nat.add_assoc.
    destruct Gy as (G1 & G2 & G3 & G4 & G5). rewrite G2. repeat split; auto. intros Q. apply G5. destruct w1; [reflexivity|destruct w; discriminate].
  - (* maybe *) destruct HL as (L1 & L2 & L3).
    destruct (IHgap m ii K rest None) as (y & My & Gy); eauto using ev_maybe; [|congruence|].
    { apply (noticed_sub _ _ _ _ _ [] w1 tail Hn). intros t. apply vb_maybe. }
    exists (y_with y (Some (y_val y))). split; [apply md_maybe; auto|]. pose proof Gy as (_ & G2 & _). rewrite G2. eapply good_with. exact Gy.
  - (* many *) pose proof HL as (L1 & L2 & L3).
    assert (Ht' : tail = w2 ++ (w ++ rest)) by (rewrite Ht, <- app_assoc; reflexivity).
    destruct (IHgap m ii (fun o => first_is E p o \/ K o) (w ++ rest) None) as (y & My & Gy); eauto using ev_many; [| |congruence|].
    { destruct w as [|t w]; [right; exact HK|left].
      apply sent_inv in H1 as [[Q _]|(a & b & y & z' & Q & _ & Q' & _)]; [discriminate|].
      destruct a as [|t' a]; [destruct L2; exists y; exact Q'|]. injection Q as <- _. exists a, y. exact Q'. }
    { apply (noticed_sub _ _ _ _ _ [] w1 tail Hn). intros t. apply vb_many_l. }
    assert (Hs' : skipn ii s = (w1 ++ w2) ++ (w ++ rest)) by (rewrite Hs, Ht', <- !app_assoc; reflexivity).
    destruct (skipn_next _ _ _ _ Hi Hs') as [Hs2 Hi2]. rewrite !app_length, !Nat.add_assoc in Hs2, Hi2.
    pose proof Gy as (G1 & G2 & G3 & G4).
    assert (R : peg _ (GMany p) m (y_pos y) (PSucc vs (y_pos y + List.length w))).
    { rewrite G3. eapply rd; eauto. }
    eexists. split; [eapply md_many_1; [exact My|exact R]|].
    eapply (good_read _ _ _ cons) in Gy. rewrite app_length, Nat.add_assoc, <- G3. exact Gy.
  - pose proof HL as (L1 & L2 & L3). rewrite <- app_assoc in Hs. destruct (skipn_next _ _ _ _ Hi Hs) as [Hs2 Hi2].
    pose proof (many_begun _ _ _ _ _ H0 L2) as N. destruct w1 as [|t w1]; [congruence|].
    assert (Fm : first E p t).
    { destruct (gap_first _ _ _ _ _ _ H0) as (a & b & Q); [intros C q' Ho; apply (Hfit C q' Ho)|].
      apply sent_inv in Q as [[Q _]|(a' & b' & y & z' & Q & _ & Q' & _)]; [discriminate|].
      destruct a' as [|t' a']; [destruct L2; exists y; exact Q'|]. injection Q as <- _. exists a', y. exact Q'. }
    assert (R : peg A p m ii (PSucc v (ii + List.length w))).
    { eapply rd; [eapply ev_many; eauto|auto|exact L1|exact Hs| |exact H]. left. exact Fm. }
    destruct (IHgap m (ii + List.length w) K rest None) as (y & My & Gy); eauto; [|discriminate|].
    { apply (noticed_sub _ _ _ _ _ w (t :: w1) tail Hn). intros t'. eapply vb_many_r. exact H. }
    exists (y_with y (v :: y_val y)). split; [eapply md_many_more; eauto|]. rewrite app_length, Nat.add_assoc.
    destruct Gy as (G1 & G2 & G3 & G4 & G5). rewrite G2. repeat split; auto. intros Q. destruct w; discriminate.
  - (* label *) destruct (IHgap m ii K rest rem) as (y & My & Gy); eauto using ev_label.
    { apply (noticed_sub _ _ _ _ _ [] w1 tail Hn). intros t (w' & u & L). exists w', u. apply la_label. exact L. }
    exists y. split; auto. apply md_label. auto.
  - destruct (IHgap m ii K rest rem) as (y & My & Gy); eauto using ev_recover.
    { apply (noticed_sub _ _ _ _ _ [] w1 tail Hn). intros t (w' & u & L). exists w', u. apply la_recover. exact L. }
    eexists. split; [apply md_recover; eauto|]. destruct Gy as (G1 & G2 & G3 & G4 & G5). repeat split; auto.
  - destruct (IHgap m ii K rest rem) as (y & My & Gy); eauto using ev_with.
    { apply (noticed_sub _ _ _ _ _ [] w1 tail Hn). intros t (w' & u & L). exists w', u. apply la_with. exact L. }
    exists y. split; auto. apply md_with. auto.
  - destruct (IHgap m ii K rest rem) as (y & My & Gy); eauto using ev_withfn.
    { apply (noticed_sub _ _ _ _ _ [] w1 tail Hn). intros t (w' & u & L). exists w', u. apply la_withfn. exact L. }
    exists y. split; auto. apply md_withfn. auto.
  - (* delay *) destruct (IHgap m ii (F d) rest rem) as (y & My & Gy); eauto using ev_delay.
    { apply (noticed_sub _ _ _ _ _ [] w1 tail Hn). intros t (w' & u & L). exists w', u. apply la_delay. exact L. }
    exists y. split; auto. apply md_delay. auto.
Qed.
End Gap.
