(** Proofs for C81: a way of mending an input with a mistyped token *)
From Verif Require Import Fuel ApiSpec ApiProofs Locations PegSpec PropsPeg DiagSpec DiagProofs PropsTerm PropsTotal LL PropsLL Mend Miss PropsMiss.
From Verif Require Export WrongSpec MendSpec.
Import ListNotations.

Section Wrong.
Context {T : Type} {V : nat -> Type}.
Variable E : env T V.
Notation gram := (gram T V).
Variables (s : list T) (get : loc -> list T -> nat -> loc) (at_ : nat -> loc).
Hypothesis HE : wf_env E.
Hypothesis Hco : cohere get s at_.
Notation lay := (exactpos s at_).
Hypothesis HG : forall d, gok lay (E d).
Variable F : nat -> option T -> Prop.
Hypothesis HF : forall d, ll1 E F (E d) (F d).
Notation len := (List.length s).
Notation peg := (peg E s (fun i => loc_col (at_ i))).
Notation fits := (everywhere E (fit E s at_)).
Variable ins : Z.
Variable z : T.

Lemma stop1 A (p : gram A) w v m i K rest : sentence E p w v -> fits p -> i <= len -> ll1 E F p K -> skipn i s = w ++ z :: rest ->
  ~ viable E p (w ++ [z]) -> peg A p m i (PSucc v (i + List.length w)).
Proof using HE HG Hco HF. intros H1 H2 H3 H4 H5 H6. eapply stop; eauto. Qed.
Lemma null_pos i : i + List.length (@nil T) = i.
Proof. cbn. lia. Qed.

(** ** [z] stands before a sentence that begins with [y] *)
Variable y : T.
Definition skipped {A} (r : mended A) (i : nat) (v : A) (e : nat) : Prop :=
  y_cost r = 1 /\ y_val r = v /\ y_pos r = e /\ y_auto r = false /\ y_ops r = [(Skip 1, at_ i)].
Lemma skipped_with A B (r : mended A) i v e (w : B) : skipped r i v e -> skipped (y_with r w) i w e.
Proof. intros (H1 & H2 & H3 & H4 & H5). repeat split; auto. Qed.
Lemma skipped_read A B C (f : A -> B -> C) (r : mended A) i v e (w : B) k : skipped r i v e -> skipped (y_then_read ins f r w k) i (f v w) k.
Proof. intros (H1 & <- & H3 & H4 & H5). repeat split; auto. Qed.

Lemma leaf1 A (q : gram A) m i left u v rest : is_leaf q -> fits q -> sentence E q (y :: u) v -> i <= len ->
  skipn i s = z :: (y :: u) ++ rest -> ~ viable E q [z] ->
  exists r, mend E s at_ A q m i ins (Some left) r /\ skipped r i v (i + 1 + List.length (y :: u)).
Proof.
  intros L Hf Hv Hi Hs Hn.
  assert (u = []) as ->.
  { pose proof (ev_here E _ _ _ Hf) as (_ & _ & H1 & _).
    destruct q as [| | | |test|teq zq lb|teq zq lb| | | | | | | | | | | | | | | | |]; cbn in L; try contradiction; apply sent_inv in Hv; cbn in Hv, H1.
    - destruct Hv as [Hv _]. injection Hv as _ ->. reflexivity.
    - destruct Hv as [Hv _]. injection Hv as _ ->. reflexivity.
    - destruct Hv as [_ Hv]. apply Forall2_len in Hv. rewrite H1 in Hv. destruct u; [reflexivity|discriminate]. }
  destruct (leaf_skips E s at_ y [z] rest ins A q m i left v ltac:(discriminate) L Hf Hv Hi Hs) as (r & M & G & Q).
  { intros z' [<-|[]]. exact Hn. }
  exists r. split; auto. destruct G as (G1 & G2 & G3 & o & G4 & ->). repeat split; auto. rewrite G3. cbn. lia.
Qed.

Lemma extra A (g : gram A) : firm E y g -> forall u v m i K rest left, fits g -> i <= len -> ll1 E F g K ->
  sentence E g (y :: u) v -> skipn i s = z :: (y :: u) ++ rest -> K (hd_error rest) -> ~ viable E g [z] ->
  exists r, mend E s at_ A g m i ins (Some left) r /\ skipped r i v (i + 1 + List.length (y :: u)).
Proof using HE HG Hco HF.
  induction 1 as [A g N|test|teq x l|teq x l|A B p f Hp IH|A p q Hp IHp Hq IHq Nq|A B p f Hp IHp Hq IHq|A B C p q f Hp IHp Hq IHq|A p l Hp IH|A p Hp IH|A p x l Hp IH|A p fn l Hp IH|d Hp IH];
    intros u v m i K rest left Hf Hi HL Hv Hs HK Hn.
  - exfalso. apply N. exists u, v. exact Hv.
  - eapply leaf1; eauto; exact I.
  - eapply leaf1; eauto; exact I.
  - eapply leaf1; eauto; exact I.
  - (* fmap *) cbn [ll1] in HL. apply sent_inv in Hv as (v0 & Hv & Hfv).
    destruct (IH u v0 m i K rest left) as (r & M & G); eauto using ev_fmap.
    { intros (w' & u' & L). apply Hn. destruct (proj1 (proj2 (proj1 (ev_here E _ _ _ Hf))) _ _ L) as [u2 Hu]. exists w', u2. eapply la_fmap; eauto. }
    exists (y_with r v). split; [|eapply skipped_with; eauto]. apply md_fmap; auto. destruct G as (_ & -> & _). auto.
  - (* alt *) cbn [ll1] in HL. destruct HL as (L1 & L2 & L3 & L4).
    assert (NZ : nth_error s i = Some z) by (rewrite <- hd_skipn, Hs; reflexivity).
    assert (N1 : peg A p m i (PFail false)).
    { apply (nope E s get at_ HE Hco HG); eauto using ev_alt_l. rewrite NZ. intros Q. apply Hn. apply vb_alt_l. apply vb_first. exact Q. }
    assert (N2 : peg A q m i (PFail false)).
    { apply (nope E s get at_ HE Hco HG); eauto using ev_alt_r. rewrite NZ. intros Q. apply Hn. apply vb_alt_r. apply vb_first. exact Q. }
    apply sent_inv in Hv as [Hv|Hv].
    + destruct (IHp u v m i K rest left) as (r & M & G); eauto using ev_alt_l.
      { intros Q. apply Hn. apply vb_alt_l. exact Q. }
      exists r. split; auto. apply md_alt_first; auto.
    + destruct (IHq u v m i K rest left) as (r & M & G); eauto using ev_alt_r.
      { intros Q. apply Hn. apply vb_alt_r. exact Q. }
      exists r. split; auto. apply md_alt_later; auto. left. apply G.
  - (* bind *) cbn [ll1] in HL. destruct HL as (L1 & L2).
    apply sent_inv in Hv as (u1 & u2 & v1 & Q & H1 & H2).
    destruct u1 as [|t u1].
    + cbn in Q. subst u2.
      assert (R : peg A p m i (PSucc v1 (i + List.length (@nil T)))).
      { eapply stop1; eauto using ev_bind_l. intros Q. apply Hn. apply vb_bind_l; auto. apply (proj1 (proj2 (proj1 (ev_here E _ _ _ Hf)))). }
      rewrite null_pos in R.
      destruct (IHq v1 H1 u v m i K rest left) as (r & M & G); eauto using ev_bind_r.
      { intros Q. apply Hn. apply (vb_bind_r E _ _ p f [] v1 [z] H1 Q). }
      exists r. split; auto. eapply md_bind_2; [exact R|]. rewrite Nat.ltb_irrefl. exact M.
    + injection Q as <- ->. change (y :: u1 ++ u2) with ((y :: u1) ++ u2) in Hs. rewrite <- app_assoc in Hs.
      destruct (IHp u1 v1 m i (fun o => exists w v, sentence E p w v /\ starts E (f v) K o) (u2 ++ rest) left) as (r & M & G); eauto using ev_bind_l.
      { exists (y :: u1), v1. split; auto. eapply starts_hd; eauto. }
      { intros Q. apply Hn. apply vb_bind_l; auto. apply (proj1 (proj2 (proj1 (ev_here E _ _ _ Hf)))). }
      destruct (skipn_next s i (z :: y :: u1) (u2 ++ rest) Hi Hs) as [Hs2 Hi2]. cbn [List.length] in Hs2, Hi2.
      pose proof G as (_ & G2 & G3 & _). cbn [List.length] in G3.
      assert (R : peg B (f v1) m (y_pos r) (PSucc v (y_pos r + List.length u2))).
      { rewrite G3. replace (i + 1 + S (List.length u1)) with (i + S (S (List.length u1))) by lia.
        eapply (rd E s get at_ HE Hco HG F HF); eauto using ev_bind_r. }
      eexists. split; [eapply md_bind_1; [exact M|rewrite G2; exact R]|].
      eapply (skipped_read _ _ _ (fun _ w => w)) in G. cbn [List.length]. rewrite app_length.
      replace (i + 1 + S (List.length u1 + List.length u2)) with (y_pos r + List.length u2) by lia. exact G.
  - (* seq *) cbn [ll1] in HL. destruct HL as (L1 & L2).
    apply sent_inv in Hv as (u1 & u2 & v1 & v2 & Q & -> & H1 & H2).
    destruct u1 as [|t u1].
    + cbn in Q. subst u2.
      assert (R : peg A p m i (PSucc v1 (i + List.length (@nil T)))).
      { eapply stop1; eauto using ev_seq_l. intros Q. apply Hn. apply vb_seq_l; auto. apply (proj1 (proj2 (proj1 (ev_here E _ _ _ Hf)))). }
      rewrite null_pos in R.
      destruct (IHq ltac:(exists v1; exact H1) u v2 m i K rest left) as (r & M & G); eauto using ev_seq_r.
      { intros Q. apply Hn. apply (vb_seq_r E _ _ _ p q f [] v1 [z] H1 Q). }
      exists (y_with r (f v1 (y_val r))). split; [eapply md_seq_2; [exact R|]; rewrite Nat.ltb_irrefl; exact M|].
      pose proof G as (_ & G2 & _). rewrite G2. eapply skipped_with. exact G.
    + injection Q as <- ->. change (y :: u1 ++ u2) with ((y :: u1) ++ u2) in Hs. rewrite <- app_assoc in Hs.
      destruct (IHp u1 v1 m i (starts E q K) (u2 ++ rest) left) as (r & M & G); eauto using ev_seq_l.
      { eapply starts_hd; eauto. }
      { intros Q. apply Hn. apply vb_seq_l; auto. apply (proj1 (proj2 (proj1 (ev_here E _ _ _ Hf)))). }
      destruct (skipn_next s i (z :: y :: u1) (u2 ++ rest) Hi Hs) as [Hs2 Hi2]. cbn [List.length] in Hs2, Hi2.
      pose proof G as (_ & G2 & G3 & _). cbn [List.length] in G3.
      assert (R : peg B q m (y_pos r) (PSucc v2 (y_pos r + List.length u2))).
      { rewrite G3. replace (i + 1 + S (List.length u1)) with (i + S (S (List.length u1))) by lia.
        eapply (rd E s get at_ HE Hco HG F HF); eauto using ev_seq_r. }
      eexists. split; [eapply md_seq_1; [exact M|exact R]|].
      eapply (skipped_read _ _ _ f) in G. cbn [List.length]. rewrite app_length.
      replace (i + 1 + S (List.length u1 + List.length u2)) with (y_pos r + List.length u2) by lia. exact G.
  - (* label *) cbn [ll1] in HL. apply sent_inv in Hv. destruct (IH u v m i K rest left) as (r & M & G); eauto using ev_label.
    { intros (w' & u' & L). apply Hn. exists w', u'. apply la_label. exact L. }
    exists r. split; auto. apply md_label. auto.
  - cbn [ll1] in HL. apply sent_inv in Hv. destruct (IH u v m i K rest left) as (r & M & G); eauto using ev_recover.
    { intros (w' & u' & L). apply Hn. exists w', u'. apply la_recover. exact L. }
    eexists. split; [apply md_recover; eauto|]. destruct G as (G1 & G2 & G3 & G4 & G5). repeat split; auto.
  - cbn [ll1] in HL. apply sent_inv in Hv. destruct (IH u v m i K rest left) as (r & M & G); eauto using ev_with.
    { intros (w' & u' & L). apply Hn. exists w', u'. apply la_with. exact L. }
    exists r. split; auto. apply md_with. auto.
  - cbn [ll1] in HL. apply sent_inv in Hv. destruct (IH u v m i K rest left) as (r & M & G); eauto using ev_withfn.
    { intros (w' & u' & L). apply Hn. exists w', u'. apply la_withfn. exact L. }
    exists r. split; auto. apply md_withfn. auto.
  - cbn [ll1] in HL. apply sent_inv in Hv. destruct (IH u v m i (F d) rest left) as (r & M & G); eauto using ev_delay.
    { intros (w' & u' & L). apply Hn. exists w', u'. apply la_delay. exact L. }
    exists r. split; auto. apply md_delay. auto.
Qed.

(** ** [z] stands where [x] should be; [y] comes after [x], if [more] *)
Variables (x : T) (more : Prop).
Definition wnode B (q : gram B) : Prop := apart_node E x B q /\ insertable_node x B q /\ (more -> firm_after_node E y x B q).
Definition put {A} (r : mended A) (p : nat) (v : A) : Prop :=
  y_cost r = 1 /\ y_val r = v /\ y_pos r = p /\ exists l, y_ops r = [(Insert l, at_ p)].
Definition swapped {A} (r : mended A) (p : nat) (v : A) (e : nat) : Prop :=
  y_cost r = 2 /\ y_val r = v /\ y_pos r = e /\ exists l, y_ops r = [(Insert l, at_ p); (Skip 1, at_ p)].
Definition result {A} (r : mended A) (p : nat) (v : A) (w2 : list T) : Prop :=
  (w2 = [] /\ put r p v) \/ (w2 <> [] /\ swapped r p v (p + 1 + List.length w2)).
Lemma result_with A B (r : mended A) p v w2 (w : B) : result r p v w2 -> result (y_with r w) p w w2.
Proof. intros [(H1 & H2 & H3 & H4 & H5)|(H1 & H2 & H3 & H4 & H5)]; [left|right]; repeat split; auto. Qed.
Lemma result_val A (r : mended A) p v w2 : result r p v w2 -> y_val r = v.
Proof. intros [(H1 & H2 & H3 & H4 & H5)|(H1 & H2 & H3 & H4 & H5)]; auto. Qed.
Lemma put_read A B C (f : A -> B -> C) (r : mended A) p v (w : B) : put r p v -> put (y_then_read ins f r w p) p (f v w).
Proof. intros (H1 & <- & H3 & H4). repeat split; auto. Qed.
Lemma swapped_read A B C (f : A -> B -> C) (r : mended A) p v e (w : B) k : swapped r p v e -> swapped (y_then_read ins f r w k) p (f v w) k.
Proof. intros (H1 & <- & H3 & H4). repeat split; auto. Qed.
Lemma put_skip A B C (f : A -> B -> C) (r : mended A) (r' : mended B) p v w e :
  put r p v -> skipped r' p w e -> swapped (y_then_mend f r r') p (f v w) e.
Proof.
  intros (H1 & <- & H3 & l & H4) (K1 & <- & K3 & K4 & K5). repeat split; cbn; auto; [lia|]. exists l. rewrite H4, K5. reflexivity.
Qed.
Lemma inf_put A (q : gram A) m i left v rest : is_leaf q -> fits q -> wnode A q -> sentence E q [x] v -> i <= len ->
  skipn i s = z :: rest -> ~ viable E q [z] -> left <> 0%Z ->
  exists r, mend E s at_ A q m i ins (Some left) r /\ result r i v [].
Proof.
  intros L Hf (Ha & Hi & _) Hv Hle Hs Hn Hl.
  destruct (leaf_missing E s at_ x (z :: rest) ins A q m i left v L Hf (conj Ha Hi) Hv Hle Hs) as (r & M & G1 & G2 & G3 & o & G4 & l & ->); auto.
  { intros z' [<-|[]]. exact Hn. }
  exists r. split; auto. left. rewrite null_pos in G3. split; auto. repeat split; auto. eauto.
Qed.

Theorem wrong A (g : gram A) W v : lang E A g W v -> ins <> 0%Z -> forall w1 w2, W = map inl (w1 ++ x :: w2) ->
  forall m ii K rest rem, fits g -> everywhere E wnode g -> ii <= len -> ll1 E F g K ->
  skipn ii s = w1 ++ z :: w2 ++ rest -> (w2 <> [] -> K (hd_error rest)) ->
  ~ viable E g (w1 ++ [z]) -> ~ viable E g (w1 ++ [x; z]) -> (w2 <> [] -> more /\ hd_error w2 = Some y) ->
  (w1 = [] -> exists left, rem = Some left /\ left <> 0%Z) ->
  exists r, mend E s at_ A g m ii ins rem r /\ result r (ii + List.length w1) v w2.
Proof using HE HG Hco HF.
  intros HW0 Hins. induction HW0 as [| | |test t Ht|teq x0 l t Ht|teq x0 l w HF2| |A B p f w v v' H IHlang Hfv|A p q w v H IHlang|A p q w v H IHlang|A B p f w w' v v' H IHlang1 H0 IHlang2|A B C p q merge w w' v v' H IHlang1 H0 IHlang2|A p|A p w v H IHlang|A p|A p w w' v l H IHlang1 H0 IHlang2|A p w v H IHlang|A p l w v H IHlang|A p w v H IHlang|A p x0 l w v H IHlang| |A p fn l w v H IHlang| | | | |d w v H IHlang];
    intros w1' w2' HW m ii K rest rem Hfit HP Hi HL Hs HK Hn Hn2 Hm Hr; cbn [ll1] in HL;
    try (destruct w1'; discriminate).
  - (* satisfy *) apply lone in HW as (-> & -> & ->). destruct (Hr eq_refl) as (left & -> & Hl). cbn [app] in *. rewrite null_pos.
    eapply inf_put; eauto; try exact I; [apply (ev_here E _ _ _ HP)|]. apply (la_sat E test x Ht).
  - apply lone in HW as (-> & -> & ->). destruct (Hr eq_refl) as (left & -> & Hl). cbn [app] in *. rewrite null_pos.
    eapply inf_put; eauto; try exact I; [apply (ev_here E _ _ _ HP)|]. apply (la_sym E teq x0 l x Ht).
  - apply map_inl_inj in HW. subst w.
    assert (L : List.length x0 = 1) by apply (ev_here E _ _ _ Hfit).
    pose proof (Forall2_len _ _ _ HF2) as L'. rewrite app_length in L'. cbn in L'.
    destruct w1'; [|cbn in L'; lia]. destruct w2'; [|cbn in L'; lia].
    destruct (Hr eq_refl) as (left & -> & Hl). cbn [app] in *. rewrite null_pos.
    eapply inf_put; eauto; try exact I; [apply (ev_here E _ _ _ HP)|]. apply (la_lit E teq x0 l [x] HF2).
  - exfalso. apply (ev_here E _ _ _ Hfit).
  - (* fmap *) assert (VB : forall u, viable E p u -> viable E (GFmap p f) u).
    { intros t (w' & u & L). destruct (proj1 (proj2 (proj1 (ev_here E _ _ _ Hfit))) _ _ L) as [u' Hu]. exists w', u'. cbn. eapply la_fmap; eauto. }
    destruct (IHlang w1' w2' HW m ii K rest rem) as (r & M & G); eauto using ev_fmap.
    exists (y_with r v'). split; [|eapply result_with; eauto]. apply md_fmap; auto. rewrite (result_val _ _ _ _ _ G). auto.
  - (* alt *) destruct HL as (L1 & L2 & L3 & L4).
    assert (N : w1' <> []).
    { intros ->. apply (proj1 (proj1 (ev_here E _ _ _ HP))). exists w2', v. subst w. exact H. }
    destruct (IHlang w1' w2' HW m ii K rest None) as (r & M & G); eauto using ev_alt_l; [intros Q; apply Hn, vb_alt_l, Q|intros Q; apply Hn2, vb_alt_l, Q|congruence|].
    exists r. split; auto. apply md_alt_l. auto.
  - destruct HL as (L1 & L2 & L3 & L4).
    assert (N : w1' <> []).
    { intros ->. apply (proj2 (proj1 (ev_here E _ _ _ HP))). exists w2', v. subst w. exact H. }
    destruct (IHlang w1' w2' HW m ii K rest None) as (r & M & G); eauto using ev_alt_r; [intros Q; apply Hn, vb_alt_r, Q|intros Q; apply Hn2, vb_alt_r, Q|congruence|].
    exists r. split; auto. apply md_alt_r; auto. apply (nope E s get at_ HE Hco HG); eauto using ev_alt_l.
    destruct w1' as [|t w1']; [congruence|]. rewrite <- hd_skipn, Hs. cbn. intros Q. apply (L4 (Some t) Q). left.
    exists (w1' ++ x :: w2'), v. subst w. exact H.
  - (* bind *) symmetry in HW. apply map_inl_app in HW as (u1 & u2 & HW & -> & ->). destruct HL as (L1 & L2).
    pose proof (proj1 (proj2 (proj1 (ev_here E _ _ _ Hfit)))) as Hcp. cbn in Hcp.
    apply (split_at x) in HW as [(c & -> & ->)|(c & -> & ->)].
    + assert (Hs' : skipn ii s = w1' ++ z :: c ++ u2 ++ rest) by (rewrite Hs, <- app_assoc; reflexivity).
      destruct (IHlang1 w1' c eq_refl m ii (fun o => exists w v, sentence E p w v /\ starts E (f v) K o) (u2 ++ rest) rem) as (r & M & G); eauto using ev_bind_l.
      { intros Nc. exists (w1' ++ x :: c), v. split; auto. eapply starts_hd; eauto. apply HK. destruct c; cbn; congruence. }
      { intros Q; apply Hn, vb_bind_l; auto. }
      { intros Q; apply Hn2, vb_bind_l; auto. }
      { destruct c; [congruence|intros _; apply Hm; discriminate]. }
      destruct (skipn_next s ii w1' (z :: c ++ u2 ++ rest) Hi Hs') as [Hsz Hiz].
      destruct G as [(-> & G)|(Nc & G)].
      * cbn [app] in *. destruct u2 as [|t u2].
        -- pose proof G as (G1 & G2 & G3 & G4).
           assert (R : peg B (f v) m (ii + List.length w1') (PSucc v' (ii + List.length w1' + List.length (@nil T)))).
           { eapply stop1; [exact H0|eapply ev_bind_r; eauto|auto|eapply L2; exact H|exact Hsz|].
             intros Q. apply Hn2. change (w1' ++ [x; z]) with (w1' ++ [x] ++ [z]). rewrite app_assoc. eapply vb_bind_r; eauto. }
           rewrite null_pos in R.
           eexists. split; [eapply md_bind_1; [exact M|rewrite G2, G3; exact R]|]. left. split; auto.
           apply (put_read _ _ _ (fun _ w => w) r (ii + List.length w1') v v' G).
        -- pose proof G as (G1 & G2 & G3 & G4). destruct (Hm ltac:(discriminate)) as [Hmore Q]. injection Q as ->.
           destruct (extra B (f v) (proj2 (proj2 (ev_here E _ _ _ HP)) Hmore w1' v H) u2 v' m (ii + List.length w1') K rest (y_left r)) as (r' & M' & G'); eauto using ev_bind_r.
           { apply HK. discriminate. }
           { intros Q. apply Hn2. change (w1' ++ [x; z]) with (w1' ++ [x] ++ [z]). rewrite app_assoc. eapply vb_bind_r; eauto. }
           eexists. split; [eapply md_bind_12; [exact M|rewrite G2, G3; exact M']|]. right. split; [discriminate|].
           apply (put_skip _ _ _ (fun _ w => w) r r' _ v v' _ G G').
      * assert (Hs2 : skipn ii s = (w1' ++ z :: c) ++ (u2 ++ rest)) by (rewrite Hs', <- app_assoc; reflexivity).
        destruct (skipn_next _ _ _ _ Hi Hs2) as [Hs3 Hi3]. rewrite app_length in Hs3, Hi3. cbn [List.length] in Hs3, Hi3.
        pose proof G as (G1 & G2 & G3 & G4).
        assert (R : peg B (f v) m (y_pos r) (PSucc v' (y_pos r + List.length u2))).
        { rewrite G3. replace (ii + List.length w1' + 1 + List.length c) with (ii + (List.length w1' + S (List.length c))) by lia.
          eapply (rd E s get at_ HE Hco HG F HF); eauto using ev_bind_r. apply HK. destruct c; cbn; congruence. }
        eexists. split; [eapply md_bind_1; [exact M|rewrite G2; exact R]|]. right. split; [destruct c; cbn; congruence|].
        rewrite app_length. replace (ii + List.length w1' + 1 + (List.length c + List.length u2)) with (y_pos r + List.length u2) by lia.
        apply (swapped_read _ _ _ (fun _ w => w) r _ v _ v' _ G).
    + rewrite <- app_assoc in Hs. destruct (skipn_next _ _ _ _ Hi Hs) as [Hs2 Hi2].
      assert (R : peg A p m ii (PSucc v (ii + List.length u1))).
      { destruct c as [|t c].
        - eapply stop1; eauto using ev_bind_l. rewrite app_nil_r in Hn. intros Q; apply Hn, vb_bind_l; auto.
        - eapply (rd E s get at_ HE Hco HG F HF); [eapply ev_bind_l; eauto|auto|exact L1|exact Hs| |exact H]. exists u1, v. split; auto. left. exists (c ++ x :: w2'), v'. exact H0. }
      destruct (IHlang2 c w2' eq_refl m (ii + List.length u1) K rest (if Nat.ltb ii (ii + List.length u1) then Some ins else rem)) as (r & M & G); eauto using ev_bind_r.
      { intros Q; apply Hn. rewrite <- app_assoc. eapply vb_bind_r; eauto. }
      { intros Q; apply Hn2. rewrite <- app_assoc. eapply vb_bind_r; eauto. }
      { intros ->. destruct u1 as [|t u1]; cbn [List.length].
        - rewrite Nat.add_0_r, Nat.ltb_irrefl. apply Hr. reflexivity.
        - replace (Nat.ltb ii (ii + S (List.length u1))) with true by (symmetry; apply Nat.ltb_lt; lia). eauto. }
      exists r. split; [eapply md_bind_2; eauto|]. rewrite app_length, Nat.add_assoc. exact G.
  - (* seq *) symmetry in HW. apply map_inl_app in HW as (u1 & u2 & HW & -> & ->). destruct HL as (L1 & L2).
    pose proof (proj1 (proj2 (proj1 (ev_here E _ _ _ Hfit)))) as Hcp. cbn in Hcp.
    apply (split_at x) in HW as [(c & -> & ->)|(c & -> & ->)].
    + assert (Hs' : skipn ii s = w1' ++ z :: c ++ u2 ++ rest) by (rewrite Hs, <- app_assoc; reflexivity).
      destruct (IHlang1 w1' c eq_refl m ii (starts E q K) (u2 ++ rest) rem) as (r & M & G); eauto using ev_seq_l.
      { intros Nc. eapply starts_hd; eauto. apply HK. destruct c; cbn; congruence. }
      { intros Q; apply Hn, vb_seq_l; auto. }
      { intros Q; apply Hn2, vb_seq_l; auto. }
      { destruct c; [congruence|intros _; apply Hm; discriminate]. }
      destruct (skipn_next s ii w1' (z :: c ++ u2 ++ rest) Hi Hs') as [Hsz Hiz].
      destruct G as [(-> & G)|(Nc & G)].
      * cbn [app] in *. destruct u2 as [|t u2].
        -- pose proof G as (G1 & G2 & G3 & G4).
           assert (R : peg B q m (ii + List.length w1') (PSucc v' (ii + List.length w1' + List.length (@nil T)))).
           { eapply stop1; [exact H0|eapply ev_seq_r; eauto|auto|exact L2|exact Hsz|].
             intros Q. apply Hn2. change (w1' ++ [x; z]) with (w1' ++ [x] ++ [z]). rewrite app_assoc. eapply vb_seq_r; eauto. }
           rewrite null_pos in R.
           eexists. split; [eapply md_seq_1; [exact M|rewrite G3; exact R]|]. left. split; auto.
           apply (put_read _ _ _ merge r (ii + List.length w1') v v' G).
        -- pose proof G as (G1 & G2 & G3 & G4). destruct (Hm ltac:(discriminate)) as [Hmore Q]. injection Q as ->.
           destruct (extra B q (proj2 (proj2 (ev_here E _ _ _ HP)) Hmore (ex_intro _ w1' (ex_intro _ v H))) u2 v' m (ii + List.length w1') K rest (y_left r)) as (r' & M' & G'); eauto using ev_seq_r.
           { apply HK. discriminate. }
           { intros Q. apply Hn2. change (w1' ++ [x; z]) with (w1' ++ [x] ++ [z]). rewrite app_assoc. eapply vb_seq_r; eauto. }
           eexists. split; [eapply md_seq_12; [exact M|rewrite G3; exact M']|]. right. split; [discriminate|].
           apply (put_skip _ _ _ merge r r' _ v v' _ G G').
      * assert (Hs2 : skipn ii s = (w1' ++ z :: c) ++ (u2 ++ rest)) by (rewrite Hs', <- app_assoc; reflexivity).
        destruct (skipn_next _ _ _ _ Hi Hs2) as [Hs3 Hi3]. rewrite app_length in Hs3, Hi3. cbn [List.length] in Hs3, Hi3.
        pose proof G as (G1 & G2 & G3 & G4).
        assert (R : peg B q m (y_pos r) (PSucc v' (y_pos r + List.length u2))).
        { rewrite G3. replace (ii + List.length w1' + 1 + List.length c) with (ii + (List.length w1' + S (List.length c))) by lia.
          eapply (rd E s get at_ HE Hco HG F HF); eauto using ev_seq_r. apply HK. destruct c; cbn; congruence. }
        eexists. split; [eapply md_seq_1; [exact M|exact R]|]. right. split; [destruct c; cbn; congruence|].
        rewrite app_length. replace (ii + List.length w1' + 1 + (List.length c + List.length u2)) with (y_pos r + List.length u2) by lia.
        apply (swapped_read _ _ _ merge r _ v _ v' _ G).
    + rewrite <- app_assoc in Hs. destruct (skipn_next _ _ _ _ Hi Hs) as [Hs2 Hi2].
      assert (R : peg A p m ii (PSucc v (ii + List.length u1))).
      { destruct c as [|t c].
        - eapply stop1; eauto using ev_seq_l. rewrite app_nil_r in Hn. intros Q; apply Hn, vb_seq_l; auto.
        - eapply (rd E s get at_ HE Hco HG F HF); [eapply ev_seq_l; eauto|auto|exact L1|exact Hs| |exact H]. left. exists (c ++ x :: w2'), v'. exact H0. }
      destruct (IHlang2 c w2' eq_refl m (ii + List.length u1) K rest (if Nat.ltb ii (ii + List.length u1) then Some ins else rem)) as (r & M & G); eauto using ev_seq_r.
      { intros Q; apply Hn. rewrite <- app_assoc. eapply vb_seq_r; eauto. }
      { intros Q; apply Hn2. rewrite <- app_assoc. eapply vb_seq_r; eauto. }
      { intros ->. destruct u1 as [|t u1]; cbn [List.length].
        - rewrite Nat.add_0_r, Nat.ltb_irrefl. apply Hr. reflexivity.
        - replace (Nat.ltb ii (ii + S (List.length u1))) with true by (symmetry; apply Nat.ltb_lt; lia). eauto. }
      exists (y_with r (merge v (y_val r))). split; [eapply md_seq_2; eauto|]. rewrite app_length, Nat.add_assoc.
      rewrite (result_val _ _ _ _ _ G). eapply result_with. exact G.
  - (* maybe *) destruct HL as (L1 & L2 & L3).
    assert (N : w1' <> []).
    { intros ->. apply (proj1 (ev_here E _ _ _ HP)). exists w2', v. subst w. exact H. }
    destruct (IHlang w1' w2' HW m ii K rest None) as (r & M & G); eauto using ev_maybe; [intros Q; apply Hn, vb_maybe, Q|intros Q; apply Hn2, vb_maybe, Q|congruence|].
    exists (y_with r (Some (y_val r))). split; [apply md_maybe; auto|]. rewrite (result_val _ _ _ _ _ G). eapply result_with. exact G.
  - (* many *) symmetry in HW. apply map_inl_app in HW as (u1 & u2 & HW & -> & ->). pose proof HL as (L1 & L2 & L3).
    assert (FM : forall t w z, sentence E (GMany p) (t :: w) z -> first E p t).
    { intros t w z0 Q. apply sent_inv in Q as [[Q _]|(a & b & y0 & z' & Q & _ & Q' & _)]; [discriminate|].
      destruct a as [|t' a]; [destruct L2; exists y0; exact Q'|]. injection Q as <- _. exists a, y0. exact Q'. }
    assert (A1 : ~ first E p x) by apply (proj1 (ev_here E _ _ _ HP)).
    apply (split_at x) in HW as [(c & -> & ->)|(c & -> & ->)].
    + assert (N : w1' <> []) by (intros ->; apply A1; exists c, v; exact H).
      assert (Hs' : skipn ii s = w1' ++ z :: c ++ u2 ++ rest) by (rewrite Hs, <- app_assoc; reflexivity).
      destruct (IHlang1 w1' c eq_refl m ii (fun o => first_is E p o \/ K o) (u2 ++ rest) None) as (r & M & G); eauto using ev_many.
      { intros Nc. destruct u2 as [|t u2]; [right; apply HK; destruct c; cbn; congruence|left]. exact (FM _ _ _ H0). }
      { intros Q; apply Hn, vb_many_l; auto. }
      { intros Q; apply Hn2, vb_many_l; auto. }
      { destruct c; [congruence|intros _; apply Hm; discriminate]. }
      { congruence. }
      destruct (skipn_next s ii w1' (z :: c ++ u2 ++ rest) Hi Hs') as [Hsz Hiz].
      destruct G as [(-> & G)|(Nc & G)].
      * cbn [app] in *. destruct u2 as [|t u2].
        -- pose proof G as (G1 & G2 & G3 & G4).
           assert (R : peg _ (GMany p) m (ii + List.length w1') (PSucc l (ii + List.length w1' + List.length (@nil T)))).
           { eapply stop1; [exact H0|eauto|auto|exact HL|exact Hsz|].
             intros Q. apply Hn2. change (w1' ++ [x; z]) with (w1' ++ [x] ++ [z]). rewrite app_assoc. eapply vb_many_r; eauto. }
           rewrite null_pos in R.
           eexists. split; [eapply md_many_1; [exact M|rewrite G3; exact R]|]. left. split; auto.
           apply (put_read _ _ _ cons r (ii + List.length w1') v l G).
        -- exfalso. destruct (Hm ltac:(discriminate)) as [Hmore Q]. injection Q as ->.
           apply (proj2 (proj2 (ev_here E _ _ _ HP)) Hmore (ex_intro _ w1' (ex_intro _ v H))). exact (FM _ _ _ H0).
      * assert (Hs2 : skipn ii s = (w1' ++ z :: c) ++ (u2 ++ rest)) by (rewrite Hs', <- app_assoc; reflexivity).
        destruct (skipn_next _ _ _ _ Hi Hs2) as [Hs3 Hi3]. rewrite app_length in Hs3, Hi3. cbn [List.length] in Hs3, Hi3.
        pose proof G as (G1 & G2 & G3 & G4).
        assert (R : peg _ (GMany p) m (y_pos r) (PSucc l (y_pos r + List.length u2))).
        { rewrite G3. replace (ii + List.length w1' + 1 + List.length c) with (ii + (List.length w1' + S (List.length c))) by lia.
          eapply (rd E s get at_ HE Hco HG F HF); eauto. apply HK. destruct c; cbn; congruence. }
        eexists. split; [eapply md_many_1; [exact M|exact R]|]. right. split; [destruct c; cbn; congruence|].
        rewrite app_length. replace (ii + List.length w1' + 1 + (List.length c + List.length u2)) with (y_pos r + List.length u2) by lia.
        apply (swapped_read _ _ _ cons r _ v _ l _ G).
    + rewrite <- app_assoc in Hs. destruct (skipn_next _ _ _ _ Hi Hs) as [Hs2 Hi2].
      destruct c as [|t c]; [exfalso; exact (A1 (FM _ _ _ H0))|].
      assert (R : peg A p m ii (PSucc v (ii + List.length u1))).
      { eapply (rd E s get at_ HE Hco HG F HF); [eapply ev_many; eauto|auto|exact L1|exact Hs| |exact H]. left. exact (FM _ _ _ H0). }
      destruct (IHlang2 (t :: c) w2' eq_refl m (ii + List.length u1) K rest None) as (r & M & G); eauto; [| |discriminate|].
      { intros Q; apply Hn. rewrite <- app_assoc. eapply vb_many_r; eauto. }
      { intros Q; apply Hn2. rewrite <- app_assoc. eapply vb_many_r; eauto. }
      exists (y_with r (v :: y_val r)). split; [eapply md_many_more; eauto|]. rewrite app_length, Nat.add_assoc.
      rewrite (result_val _ _ _ _ _ G). eapply result_with. exact G.
  - (* attempt *) exfalso. apply (ev_here E _ _ _ Hfit).
  - (* label *) assert (VB : forall u, viable E p u -> viable E (GLabel p l) u) by (intros u (w' & u' & L); exists w', u'; apply la_label; exact L).
    destruct (IHlang w1' w2' HW m ii K rest rem) as (r & M & G); eauto using ev_label.
    exists r. split; auto. apply md_label. auto.
  - assert (VB : forall u, viable E p u -> viable E (GRecover p) u) by (intros u (w' & u' & L); exists w', u'; apply la_recover; exact L).
    destruct (IHlang w1' w2' HW m ii K rest rem) as (r & M & G); eauto using ev_recover.
    eexists. split; [apply md_recover; eauto|]. exact G.
  - assert (VB : forall u, viable E p u -> viable E (GRecoverWith p x0 l) u) by (intros u (w' & u' & L); exists w', u'; apply la_with; exact L).
    destruct (IHlang w1' w2' HW m ii K rest rem) as (r & M & G); eauto using ev_with.
    exists r. split; auto. apply md_with. auto.
  - assert (VB : forall u, viable E p u -> viable E (GRecoverWithFn p fn l) u) by (intros u (w' & u' & L); exists w', u'; apply la_withfn; exact L).
    destruct (IHlang w1' w2' HW m ii K rest rem) as (r & M & G); eauto using ev_withfn.
    exists r. split; auto. apply md_withfn. auto.
  - destruct HL.
  - destruct HL.
  - destruct HL.
  - (* delay *) assert (VB : forall u, viable E (E d) u -> viable E (GDelay d) u) by (intros u (w' & u' & L); exists w', u'; apply la_delay; exact L).
    destruct (IHlang w1' w2' HW m ii (F d) rest rem) as (r & M & G); eauto using ev_delay.
    exists r. split; auto. apply md_delay. auto.
Qed.
End Wrong.
