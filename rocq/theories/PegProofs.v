(** The plain interpreter computes exactly the declarative semantics. *)
From Verif Require Export PegSpec ApiProofs.

Definition sres_add {T A} (con : bool) (v : list A) (r : sres T (list A)) : sres T (list A) :=
  match r with
  | SOk o => SOk (Ok (v ++ ok_val o) (ok_pos o) (ok_ctx o) (ok_exp o) (con || ok_con o))
  | SErr e => SErr e
  end.
Lemma many_fast_acc {T A} (p : pfast T A) s n : forall con v pos c,
  many_fast p n con v s pos c = omap (sres_add con v) (many_fast p n false [] s pos c).
Proof.
  induction n as [|n IH]; intros con v pos c; cbn [many_fast]; [reflexivity|].
  destruct (p s pos c) as [[o|e]|e|]; cbn [obind omap]; try reflexivity.
  - destruct (ok_con o); [|reflexivity].
    rewrite (IH true (v ++ _)), (IH true ([] ++ _)).
    destruct (many_fast p n false [] s (ok_pos o) (ok_ctx o)) as [[o'|e]|e|]; simpl; try reflexivity.
    rewrite <- app_assoc. simpl. rewrite orb_true_r. reflexivity.
  - destruct (er_con e); simpl; [reflexivity|]. rewrite app_nil_r, orb_false_r. reflexivity.
Qed.

Section PegProofs.
Context {T : Type} {V : nat -> Type}.
Variable E : env T V.
Variable s : list T.
Variable get : loc -> list T -> nat -> loc.
Variable locof : nat -> loc.
Variable lay : Prop.
Hypothesis Hco : cohere get s locof.
Hypothesis Hlay : lay -> exactpos s locof.
Hypothesis HE : forall d, gok lay (E d).
Let col (i : nat) : Z := loc_col (locof i).
Let CS := pos_system s get locof lay Hco Hlay.
Let Cok := pos_Cok (T:=T) get locof.
Let len := List.length s.

Definition abs {A} (x : out (sres T A)) : option (pres A) :=
  match x with
  | Ret (SOk o) => Some (PSucc (ok_val o) (ok_pos o))
  | Ret (SErr e) => Some (PFail (er_con e))
  | Raise e => Some (PExn e)
  | NoFuel => None
  end.

Lemma abs_succ {A} (x : out (sres T A)) v j : abs x = Some (PSucc v j) ->
  exists o, x = Ret (SOk o) /\ ok_val o = v /\ ok_pos o = j.
Proof. destruct x as [[o|e]|e|]; simpl; intros H; try discriminate. injection H as <- <-. eauto. Qed.
Lemma abs_fail {A} (x : out (sres T A)) b : abs x = Some (PFail b) ->
  exists e, x = Ret (SErr e) /\ er_con e = b.
Proof. destruct x as [[o|e]|e|]; simpl; intros H; try discriminate. injection H as <-. eauto. Qed.
Lemma abs_exn {A} (x : out (sres T A)) e : abs x = Some (PExn e) -> x = Raise e.
Proof. destruct x as [[o|?]|?|]; simpl; intros H; try discriminate. injection H as <-. reflexivity. Qed.
Lemma abs_lef {A} (x y : out (sres T A)) o : lef x y -> abs x = Some o -> abs y = Some o.
Proof. intros [->| ->]; [discriminate|auto]. Qed.

Lemma good_ok n A (g : gram T V A) pos c o :
  gok lay g -> pos <= len -> Cok pos c -> fast E n g s pos c = Ret (SOk o) ->
  pos <= ok_pos o <= len /\ ok_con o = Nat.ltb pos (ok_pos o) /\
  Cok (ok_pos o) (ok_ctx o) /\ ctx_mark (ok_ctx o) = ctx_mark c.
Proof.
  intros Hg Hp Hc H. apply (fast_good E s _ _ _ _ CS HE) in H; auto.
  destruct H as (_ & H). exact H.
Qed.

Lemma abs_prepend {A} x (b : bool) (r : sres T A) :
  abs (Ret (sres_prepend x b r)) =
  match abs (Ret r) with Some (PFail b') => Some (PFail (b' || b)) | o => o end.
Proof.
  destruct r as [o|e]; simpl.
  - unfold ok_prepend. destruct (ok_con o); reflexivity.
  - unfold er_prepend. destruct (er_con e) eqn:H; simpl; rewrite ?H; reflexivity.
Qed.
Lemma abs_set_exp {A} x (r : sres T A) : abs (Ret (sres_set_exp x r)) = abs (Ret r).
Proof.
  destruct r as [o|e]; simpl.
  - unfold ok_set_exp. destruct (ok_con o); reflexivity.
  - unfold er_set_exp. destruct (er_con e) eqn:H; simpl; rewrite ?H; reflexivity.
Qed.
Lemma abs_set_ctx {A} x (r : sres T A) : abs (Ret (sres_set_ctx x r)) = abs (Ret r).
Proof. destruct r; reflexivity. Qed.

Lemma after_ltb {A} i j (o : pres A) (b : bool) : b = Nat.ltb i j ->
  match o with PFail b' => PFail (b' || b) | o => o end = after i j o.
Proof. intros ->. destruct o; reflexivity. Qed.

Lemma upd_mark' c pos : ctx_mark (update_loc c s pos) = ctx_mark c.
Proof. unfold update_loc. destruct (Z.eqb _ _); reflexivity. Qed.

Lemma many_sound A (p : gram T V A) (F : pfast T A) : gok lay p ->
  (forall pos c o, pos <= len -> Cok pos c -> abs (F s pos c) = Some o ->
     peg E s col A p (ctx_mark c) pos o) ->
  (forall pos c o, pos <= len -> Cok pos c -> F s pos c = Ret (SOk o) ->
     pos <= ok_pos o <= len /\ ok_con o = Nat.ltb pos (ok_pos o) /\
     Cok (ok_pos o) (ok_ctx o) /\ ctx_mark (ok_ctx o) = ctx_mark c) ->
  forall n pos c o, pos <= len -> Cok pos c ->
  abs (many_fast F n false [] s pos c) = Some o ->
  peg E s col _ (GMany p) (ctx_mark c) pos o.
Proof.
  intros Hp HF HG n. induction n as [|n IH]; cbn [many_fast]; intros pos c o Hpos Hc H; [discriminate|].
  destruct (F s pos c) as [[o1|e]|e|] eqn:HFe; cbn [obind] in H; [| | |discriminate].
  - pose proof (HG _ _ _ Hpos Hc HFe) as (G1 & G2 & G3 & G4).
    pose proof (HF pos c _ Hpos Hc ltac:(rewrite HFe; reflexivity)) as P1. simpl in P1.
    destruct (ok_con o1).
    + symmetry in G2. apply Nat.ltb_lt in G2.
      rewrite many_fast_acc in H.
      destruct (many_fast F n false [] s (ok_pos o1) (ok_ctx o1)) as [[o2|e2]|e2|] eqn:HM;
        cbn in H; [| | |discriminate]; injection H as <-.
      * assert (P2 := IH (ok_pos o1) (ok_ctx o1) _ ltac:(lia) G3 ltac:(rewrite HM; reflexivity)).
        rewrite G4 in P2. eapply pg_many_more; eauto.
      * assert (P2 := IH (ok_pos o1) (ok_ctx o1) _ ltac:(lia) G3 ltac:(rewrite HM; reflexivity)).
        rewrite G4 in P2. eapply pg_many_more_fail; eauto.
      * assert (P2 := IH (ok_pos o1) (ok_ctx o1) _ ltac:(lia) G3 ltac:(rewrite HM; reflexivity)).
        rewrite G4 in P2. eapply pg_many_more_exn; eauto.
    + cbn in H. injection H as <-. symmetry in G2. apply Nat.ltb_ge in G2.
      assert (ok_pos o1 = pos) by lia. rewrite H in P1. eapply pg_many_empty; eauto.
  - pose proof (HF pos c _ Hpos Hc ltac:(rewrite HFe; reflexivity)) as P1. simpl in P1.
    destruct (er_con e) eqn:He; cbn in H; injection H as <-.
    + rewrite He. apply pg_many_fail; auto.
    + apply pg_many_stop; auto.
  - pose proof (HF pos c _ Hpos Hc ltac:(rewrite HFe; reflexivity)) as P1. simpl in P1.
    injection H as <-. apply pg_many_exn; auto.
Qed.

Theorem peg_sound n : forall A (g : gram T V A) pos c o,
  gok lay g -> pos <= len -> Cok pos c ->
  abs (fast E n g s pos c) = Some o -> peg E s col A g (ctx_mark c) pos o.
Proof.
  induction n as [|n IH]; intros A g pos c o Hg Hpos Hc H; [discriminate|].
  assert (Hcol : is_layout A g -> loc_col (ctx_loc (update_loc c s pos)) = col pos).
  { intros HL. pose proof (gall_node _ _ _ Hg) as [_ HL'].
    destruct (cs_col _ _ _ _ _ CS pos c (HL' HL) Hc Hpos) as [_ K]. exact K. }
  pose proof (cs_upd _ _ _ _ _ CS pos pos c Hc ltac:(unfold len in *; lia)) as Hcu.
  destruct g; cbn [fast] in H; simpl in Hg.
  - injection H as <-. apply pg_pure.
  - unfold purefn_fast in H. destruct (f tt) as [v|e|] eqn:Hf; cbn in H; [| |discriminate]; injection H as <-.
    + apply pg_purefn; auto.
    + apply pg_purefn_exn; auto.
  - injection H as <-. apply pg_unexpected.
  - unfold eof_fast in H. destruct (Nat.eqb_spec pos (List.length s)); injection H as <-; cbn.
    + subst pos. apply pg_eof.
    + apply pg_eof_fail; auto.
  - unfold satisfy_fast, probe_tok in H. destruct (nth_error s pos) as [t|] eqn:Hn.
    + destruct (test t) as [[]|e|] eqn:Ht; cbn in H; try discriminate; injection H as <-.
      * eapply pg_sat; eauto.
      * eapply pg_sat_no; eauto.
      * eapply pg_sat_exn; eauto.
    + injection H as <-. apply pg_sat_end; auto.
  - unfold sym_fast, probe_sym in H. destruct (nth_error s pos) as [t|] eqn:Hn.
    + destruct (teq t x) eqn:Ht; injection H as <-; cbn.
      * apply pg_sym; auto.
      * apply pg_sym_no. intros t'. rewrite Hn. congruence.
    + injection H as <-. apply pg_sym_no. rewrite Hn. discriminate.
  - unfold literal_fast in H. destruct (starts_with teq x s pos) eqn:Hs; injection H as <-; cbn.
    + apply pg_lit; auto.
    + apply pg_lit_no; auto.
  - unfold regexp_fast, probe_re in H. destruct (m s pos) as [[e [v|]]|] eqn:Hm; injection H as <-; cbn.
    + apply pg_re; auto.
    + apply pg_re_no. intros (e' & v & K). congruence.
    + apply pg_re_no. intros (e' & v & K). congruence.
  - (* fmap *) unfold fmap_fast in H. destruct Hg as [_ Hg].
    destruct (fast E n g s pos c) as [[o1|e]|e|] eqn:HF; cbn in H; try discriminate.
    + pose proof (IH _ _ _ _ _ Hg Hpos Hc ltac:(rewrite HF; reflexivity)) as P. cbn in P.
      unfold ok_fmap in H. destruct (f (ok_val o1)) as [w|e|] eqn:Hf; cbn in H; try discriminate; injection H as <-.
      * eapply pg_fmap; eauto.
      * eapply pg_fmap_raise; eauto.
    + pose proof (IH _ _ _ _ _ Hg Hpos Hc ltac:(rewrite HF; reflexivity)) as P. cbn in P.
      injection H as <-. apply pg_fmap_fail; auto.
    + pose proof (IH _ _ _ _ _ Hg Hpos Hc ltac:(rewrite HF; reflexivity)) as P. cbn in P.
      injection H as <-. apply pg_fmap_exn; auto.
  - (* alt *) unfold alt_fast in H. destruct Hg as [_ [Hg1 Hg2]].
    destruct (fast E n g1 s pos c) as [[o1|e]|e|] eqn:HF; cbn in H; try discriminate;
      pose proof (IH _ _ _ _ _ Hg1 Hpos Hc ltac:(rewrite HF; reflexivity)) as P; cbn in P.
    + injection H as <-. apply pg_alt_l; auto.
    + destruct (er_con e) eqn:He.
      * cbn in H. rewrite He in H. injection H as <-. apply pg_alt_fail; auto.
      * assert (K : abs (fast E n g2 s pos c) = Some o).
        { destruct (fast E n g2 s pos c) as [[o2|e2]|e2|]; cbn in H |- *; try discriminate; auto.
          - unfold ok_set_exp in H. destruct (ok_con o2) eqn:H2; cbn in H; auto.
          - destruct (er_con e2) eqn:H2; cbn in H; rewrite ?H2 in H; auto. }
        eapply pg_alt_r; eauto.
    + injection H as <-. apply pg_alt_exn; auto.
  - (* bind *) unfold bind_fast in H. destruct Hg as [_ [Hg1 Hg2]].
    destruct (fast E n g s pos c) as [[o1|e]|e|] eqn:HF; cbn [obind] in H; try discriminate;
      pose proof (IH _ _ _ _ _ Hg1 Hpos Hc ltac:(rewrite HF; reflexivity)) as P; cbn in P.
    + destruct (good_ok _ _ _ _ _ _ Hg1 Hpos Hc HF) as (G1 & G2 & G3 & G4).
      destruct (fast E n (f (ok_val o1)) s (ok_pos o1) (ok_ctx o1)) as [r|e|] eqn:HF2;
        cbn [obind] in H; try discriminate.
      * rewrite abs_prepend in H.
        assert (exists o2, abs (Ret r) = Some o2 /\ o = after pos (ok_pos o1) o2) as (o2 & K1 & ->).
        { destruct (abs (Ret r)) as [o2|]; [|discriminate]. exists o2. split; auto.
          rewrite <- (after_ltb _ _ o2 _ G2). destruct o2; congruence. }
        apply (pg_bind E s col _ _ g f _ pos (ok_val o1) (ok_pos o1) o2); auto.
        rewrite <- G4. apply IH; [apply Hg2|lia|auto|rewrite HF2; exact K1].
      * cbn in H. injection H as <-.
        apply (pg_bind E s col _ _ g f _ pos (ok_val o1) (ok_pos o1) (PExn e)); auto.
        rewrite <- G4. apply IH; [apply Hg2|lia|auto|rewrite HF2; reflexivity].
    + injection H as <-. apply pg_bind_fail; auto.
    + injection H as <-. apply pg_bind_exn; auto.
  - (* seq *) unfold seq_fast in H. destruct Hg as [_ [Hg1 Hg2]].
    destruct (fast E n g1 s pos c) as [[o1|e]|e|] eqn:HF; cbn [obind] in H; try discriminate;
      pose proof (IH _ _ _ _ _ Hg1 Hpos Hc ltac:(rewrite HF; reflexivity)) as P; cbn in P.
    + destruct (good_ok _ _ _ _ _ _ Hg1 Hpos Hc HF) as (G1 & G2 & G3 & G4).
      assert (exists o2, abs (fast E n g2 s (ok_pos o1) (ok_ctx o1)) = Some o2 /\
        o = on_value (merge (ok_val o1)) (after pos (ok_pos o1) o2)) as (o2 & K1 & ->).
      { destruct (fast E n g2 s (ok_pos o1) (ok_ctx o1)) as [[o2|e2]|e2|] eqn:HF2;
          cbn [obind sres_fmap ok_fmap] in H; try discriminate.
        - rewrite abs_prepend in H. cbn in H. injection H as <-. eexists. split; [reflexivity|]. reflexivity.
        - rewrite abs_prepend in H. cbn in H. injection H as <-.
          eexists. split; [reflexivity|]. rewrite G2. reflexivity.
        - injection H as <-. eexists. split; [reflexivity|]. reflexivity. }
      eapply pg_seq; eauto. rewrite <- G4. eapply IH; eauto. lia.
    + injection H as <-. apply pg_seq_fail; auto.
    + injection H as <-. apply pg_seq_exn; auto.
  - (* maybe *) unfold maybe_fast in H. destruct Hg as [_ Hg].
    destruct (fast E n g s pos c) as [[o1|e]|e|] eqn:HF; cbn in H; try discriminate;
      pose proof (IH _ _ _ _ _ Hg Hpos Hc ltac:(rewrite HF; reflexivity)) as P; cbn in P.
    + injection H as <-. apply pg_maybe; auto.
    + destruct (er_con e) eqn:He; cbn in H; rewrite ?He in H; injection H as <-.
      * apply pg_maybe_fail; auto.
      * apply pg_maybe_none; auto.
    + injection H as <-. apply pg_maybe_exn; auto.
  - (* many *) destruct Hg as [_ Hg]. eapply many_sound; eauto.
    intros. eapply good_ok; eauto.
  - (* attempt *) unfold attempt_fast in H. destruct Hg as [_ Hg].
    destruct (fast E n g s pos c) as [[o1|e]|e|] eqn:HF; cbn in H; try discriminate;
      pose proof (IH _ _ _ _ _ Hg Hpos Hc ltac:(rewrite HF; reflexivity)) as P; cbn in P;
      injection H as <-.
    + apply pg_attempt; auto.
    + eapply pg_attempt_fail; eauto.
    + apply pg_attempt_exn; auto.
  - (* label *) unfold label_fast in H. destruct Hg as [_ Hg].
    apply pg_label. apply IH; auto. destruct (fast E n g s pos c); cbn [obind] in H; auto.
    rewrite abs_set_exp in H. exact H.
  - destruct Hg as [_ Hg]. apply pg_recover. apply IH; auto.
  - destruct Hg as [_ Hg]. apply pg_with. apply IH; auto.
  - destruct Hg as [_ Hg]. apply pg_withfn. apply IH; auto.
  - (* block *) unfold block_fast in H. destruct Hg as [_ Hg]. apply pg_block.
    rewrite <- Hcol by exact I.
    set (c1 := update_loc c s pos) in *.
    change (loc_col (ctx_loc c1)) with (ctx_mark (set_mark c1 (loc_col (ctx_loc c1)))).
    apply IH; auto.
    destruct (fast E n g s pos (set_mark c1 (loc_col (ctx_loc c1)))); cbn [obind] in H; auto.
    rewrite abs_set_ctx in H. exact H.
  - (* aligned *) unfold aligned_fast in H. destruct Hg as [_ Hg].
    rewrite upd_mark', (Hcol I) in H.
    destruct (Z.eqb_spec (ctx_mark c) (col pos)) as [He|He].
    + apply pg_aligned; auto. rewrite <- (upd_mark' c pos). apply IH; auto.
    + injection H as <-. apply pg_aligned_no. auto.
  - (* indented *) unfold indented_fast in H. destruct Hg as [_ Hg].
    rewrite upd_mark', (Hcol I) in H.
    destruct (Z.eqb_spec (ctx_mark c + delta) (col pos)) as [He|He].
    + apply pg_indented; auto.
      change (col pos) with (ctx_mark (set_mark (update_loc c s pos) (col pos))).
      apply IH; auto.
      destruct (fast E n g s pos (set_mark (update_loc c s pos) (col pos))); cbn [obind] in H; auto.
      rewrite abs_set_ctx in H. exact H.
    + injection H as <-. apply pg_indented_no. auto.
  - apply pg_delay. apply IH; auto.
  - injection H as <-. apply pg_undef.
Qed.

(** ** Completeness *)
Definition reach {A} (g : gram T V A) pos c o : Prop :=
  exists n, abs (fast E n g s pos c) = Some o.

Lemma reach_le A (g : gram T V A) pos c o n m :
  abs (fast E n g s pos c) = Some o -> n <= m -> abs (fast E m g s pos c) = Some o.
Proof. intros H Hm. eapply abs_lef; [apply (fast_lef E n m Hm)|exact H]. Qed.

Lemma reach_succ A (g : gram T V A) pos c v j : gok lay g -> pos <= len -> Cok pos c ->
  reach g pos c (PSucc v j) ->
  exists n o, (forall m, n <= m -> fast E m g s pos c = Ret (SOk o)) /\
    ok_val o = v /\ ok_pos o = j /\ pos <= j <= len /\ ok_con o = Nat.ltb pos j /\
    Cok j (ok_ctx o) /\ ctx_mark (ok_ctx o) = ctx_mark c.
Proof.
  intros Hg Hp Hc [n H]. apply abs_succ in H as (o & H & H1 & H2).
  pose proof (good_ok _ _ _ _ _ _ Hg Hp Hc H) as (G1 & G2 & G3 & G4).
  subst j v. exists n, o. split; [|auto 10].
  intros m Hm. eapply fast_mono; eauto. discriminate.
Qed.
Lemma reach_fail A (g : gram T V A) pos c b : reach g pos c (PFail b) ->
  exists n e, (forall m, n <= m -> fast E m g s pos c = Ret (SErr e)) /\ er_con e = b.
Proof.
  intros [n H]. apply abs_fail in H as (e & H & H1). exists n, e. split; auto.
  intros m Hm. eapply fast_mono; eauto. discriminate.
Qed.
Lemma reach_exn A (g : gram T V A) pos c e : reach g pos c (PExn e) ->
  exists n, forall m, n <= m -> fast E m g s pos c = Raise e.
Proof.
  intros [n H]. apply abs_exn in H. exists n.
  intros m Hm. eapply fast_mono; eauto. discriminate.
Qed.
Lemma reach_any A (g : gram T V A) pos c o : reach g pos c o ->
  exists n x, (forall m, n <= m -> fast E m g s pos c = x) /\ abs x = Some o.
Proof.
  intros [n H]. exists n, (fast E n g s pos c). split; auto.
  intros m Hm. eapply fast_mono; eauto. intros K. rewrite K in H. discriminate.
Qed.

Lemma fast_many A (p : gram T V A) n pos c :
  fast E (S n) (GMany p) s pos c = many_fast (fast E n p) n false [] s pos c.
Proof. reflexivity. Qed.
Lemma many_fast_S A (p : pfast T A) n con v pos c :
  many_fast p (S n) con v s pos c =
  (r <- p s pos c ;;
   match r with
   | SOk o =>
       if ok_con o then
         many_fast p n true (v ++ [ok_val o]) s (ok_pos o) (ok_ctx o)
       else Raise ManyEmpty
   | SErr e =>
       if er_con e then Ret (SErr e)
       else Ret (SOk (Ok v pos c (er_exp e) con))
   end).
Proof. reflexivity. Qed.

Theorem peg_complete A (g : gram T V A) m i o :
  peg E s col A g m i o -> gok lay g -> i <= len ->
  forall c, Cok i c -> ctx_mark c = m -> reach g i c o.
Proof.
  induction 1; intros Hg Hi c Hc Hm; pose proof Hg as Hg0; simpl in Hg0.
  - exists 1. reflexivity.
  - exists 1. cbn. unfold purefn_fast. rewrite H. reflexivity.
  - exists 1. cbn. unfold purefn_fast. rewrite H. reflexivity.
  - exists 1. reflexivity.
  - exists 1. cbn. unfold eof_fast. rewrite Nat.eqb_refl. reflexivity.
  - exists 1. cbn. unfold eof_fast. destruct (Nat.eqb_spec i (List.length s)); [contradiction|reflexivity].
  - exists 1. cbn. unfold satisfy_fast, probe_tok. rewrite H. cbn. rewrite H0. reflexivity.
  - exists 1. cbn. unfold satisfy_fast, probe_tok. rewrite H. cbn. rewrite H0. reflexivity.
  - exists 1. cbn. unfold satisfy_fast, probe_tok. rewrite H. reflexivity.
  - exists 1. cbn. unfold satisfy_fast, probe_tok. rewrite H. cbn. rewrite H0. reflexivity.
  - exists 1. cbn. unfold sym_fast, probe_sym. rewrite H. cbn. rewrite H0. reflexivity.
  - exists 1. cbn. unfold sym_fast, probe_sym. destruct (nth_error s i) as [t|] eqn:Hn; [|reflexivity].
    cbn. rewrite (H t eq_refl). reflexivity.
  - exists 1. cbn. unfold literal_fast. change (starts_with teq x s i) with (stands_at teq x s i). rewrite H. reflexivity.
  - exists 1. cbn. unfold literal_fast. change (starts_with teq x s i) with (stands_at teq x s i). rewrite H. reflexivity.
  - exists 1. cbn. unfold regexp_fast, probe_re. rewrite H. reflexivity.
  - exists 1. cbn. unfold regexp_fast, probe_re. destruct (re s i) as [[e [v|]]|] eqn:Hr; try reflexivity.
    exfalso. apply H. exists e, v. auto.
  - (* fmap *) destruct (reach_succ _ _ _ _ _ _ (proj2 Hg0) Hi Hc (IHpeg (proj2 Hg0) Hi c Hc Hm))
      as (n & o & Hn & Hv & Hj & _).
    exists (S n). cbn [fast]. unfold fmap_fast. rewrite Hn by auto. cbn. unfold ok_fmap.
    rewrite Hv, H0. cbn. congruence.
  - destruct (reach_succ _ _ _ _ _ _ (proj2 Hg0) Hi Hc (IHpeg (proj2 Hg0) Hi c Hc Hm))
      as (n & o & Hn & Hv & Hj & _).
    exists (S n). cbn [fast]. unfold fmap_fast. rewrite Hn by auto. cbn. unfold ok_fmap.
    rewrite Hv, H0. reflexivity.
  - destruct (reach_fail _ _ _ _ _ (IHpeg (proj2 Hg0) Hi c Hc Hm)) as (n & e & Hn & He).
    exists (S n). cbn [fast]. unfold fmap_fast. rewrite Hn by auto. cbn. congruence.
  - destruct (reach_exn _ _ _ _ _ (IHpeg (proj2 Hg0) Hi c Hc Hm)) as (n & Hn).
    exists (S n). cbn [fast]. unfold fmap_fast. rewrite Hn by auto. reflexivity.
  - (* alt *) destruct (reach_succ _ _ _ _ _ _ (proj1 (proj2 Hg0)) Hi Hc
      (IHpeg (proj1 (proj2 Hg0)) Hi c Hc Hm)) as (n & o & Hn & Hv & Hj & _).
    exists (S n). cbn [fast]. unfold alt_fast. rewrite Hn by auto. cbn. congruence.
  - destruct (reach_fail _ _ _ _ _ (IHpeg (proj1 (proj2 Hg0)) Hi c Hc Hm)) as (n & e & Hn & He).
    exists (S n). cbn [fast]. unfold alt_fast. rewrite Hn by auto. cbn. rewrite He. cbn. congruence.
  - destruct (reach_exn _ _ _ _ _ (IHpeg (proj1 (proj2 Hg0)) Hi c Hc Hm)) as (n & Hn).
    exists (S n). cbn [fast]. unfold alt_fast. rewrite Hn by auto. reflexivity.
  - destruct (reach_fail _ _ _ _ _ (IHpeg1 (proj1 (proj2 Hg0)) Hi c Hc Hm)) as (n & e & Hn & He).
    destruct (reach_any _ _ _ _ _ (IHpeg2 (proj2 (proj2 Hg0)) Hi c Hc Hm)) as (n2 & x & Hn2 & Hx).
    exists (S (n + n2)). cbn [fast]. unfold alt_fast. rewrite Hn, Hn2 by lia. cbn. rewrite He.
    destruct x as [[o2|e2]|e2|]; cbn in Hx |- *; auto.
    + unfold ok_set_exp. destruct (ok_con o2); exact Hx.
    + destruct (er_con e2) eqn:H2; cbn; rewrite ?H2; exact Hx.
  - (* bind *) destruct (reach_succ _ _ _ _ _ _ (proj1 (proj2 Hg0)) Hi Hc
      (IHpeg1 (proj1 (proj2 Hg0)) Hi c Hc Hm)) as (n & o1 & Hn & Hv & Hj & Hb & Hcon & Hc' & Hm').
    destruct (reach_any _ _ _ _ _ (IHpeg2 (proj2 (proj2 Hg0) v) (proj2 Hb) (ok_ctx o1) Hc'
      ltac:(congruence))) as (n2 & x & Hn2 & Hx).
    exists (S (n + n2)). cbn [fast]. unfold bind_fast. rewrite Hn by lia. cbn [obind].
    rewrite Hv, Hj, Hn2 by lia.
    destruct x as [r|e2|]; cbn [obind]; [|cbn in Hx |- *; injection Hx as <-; reflexivity|discriminate].
    rewrite abs_prepend, Hx, Hcon. destruct o; reflexivity.
  - destruct (reach_fail _ _ _ _ _ (IHpeg (proj1 (proj2 Hg0)) Hi c Hc Hm)) as (n & e & Hn & He).
    exists (S n). cbn [fast]. unfold bind_fast. rewrite Hn by auto. cbn. congruence.
  - destruct (reach_exn _ _ _ _ _ (IHpeg (proj1 (proj2 Hg0)) Hi c Hc Hm)) as (n & Hn).
    exists (S n). cbn [fast]. unfold bind_fast. rewrite Hn by auto. reflexivity.
  - (* seq *) destruct (reach_succ _ _ _ _ _ _ (proj1 (proj2 Hg0)) Hi Hc
      (IHpeg1 (proj1 (proj2 Hg0)) Hi c Hc Hm)) as (n & o1 & Hn & Hv & Hj & Hb & Hcon & Hc' & Hm').
    destruct (reach_any _ _ _ _ _ (IHpeg2 (proj2 (proj2 Hg0)) (proj2 Hb) (ok_ctx o1) Hc'
      ltac:(congruence))) as (n2 & x & Hn2 & Hx).
    exists (S (n + n2)). cbn [fast]. unfold seq_fast. rewrite Hn by lia. cbn [obind].
    rewrite Hv, Hj, Hn2 by lia.
    destruct x as [[o2|e2]|e2|]; cbn [obind sres_fmap ok_fmap]; try discriminate;
      [| |cbn in Hx |- *; injection Hx as <-; reflexivity]; rewrite abs_prepend;
      cbn in Hx |- *; injection Hx as <-; cbn; rewrite ?Hcon; reflexivity.
  - destruct (reach_fail _ _ _ _ _ (IHpeg (proj1 (proj2 Hg0)) Hi c Hc Hm)) as (n & e & Hn & He).
    exists (S n). cbn [fast]. unfold seq_fast. rewrite Hn by auto. cbn. congruence.
  - destruct (reach_exn _ _ _ _ _ (IHpeg (proj1 (proj2 Hg0)) Hi c Hc Hm)) as (n & Hn).
    exists (S n). cbn [fast]. unfold seq_fast. rewrite Hn by auto. reflexivity.
  - (* maybe *) destruct (reach_succ _ _ _ _ _ _ (proj2 Hg0) Hi Hc (IHpeg (proj2 Hg0) Hi c Hc Hm))
      as (n & o & Hn & Hv & Hj & _).
    exists (S n). cbn [fast]. unfold maybe_fast. rewrite Hn by auto. cbn. congruence.
  - destruct (reach_fail _ _ _ _ _ (IHpeg (proj2 Hg0) Hi c Hc Hm)) as (n & e & Hn & He).
    exists (S n). cbn [fast]. unfold maybe_fast. rewrite Hn by auto. cbn. rewrite He. reflexivity.
  - destruct (reach_fail _ _ _ _ _ (IHpeg (proj2 Hg0) Hi c Hc Hm)) as (n & e & Hn & He).
    exists (S n). cbn [fast]. unfold maybe_fast. rewrite Hn by auto. cbn. rewrite He. cbn. congruence.
  - destruct (reach_exn _ _ _ _ _ (IHpeg (proj2 Hg0) Hi c Hc Hm)) as (n & Hn).
    exists (S n). cbn [fast]. unfold maybe_fast. rewrite Hn by auto. reflexivity.
  - (* many more *) destruct (reach_succ _ _ _ _ _ _ (proj2 Hg0) Hi Hc (IHpeg1 (proj2 Hg0) Hi c Hc Hm))
      as (n & o1 & Hn & Hv & Hj & Hb & Hcon & Hc' & Hm').
    destruct (reach_any _ _ _ _ _ (IHpeg2 Hg (proj2 Hb) (ok_ctx o1) Hc' ltac:(congruence)))
      as (n2 & x & Hn2 & Hx).
    pose (N := n + n2). exists (S (S N)). rewrite fast_many, many_fast_S, Hn by lia.
    cbn [obind]. assert (Hlt : Nat.ltb i j = true) by (apply Nat.ltb_lt; auto). rewrite Hcon, Hlt, Hj, Hv.
    rewrite many_fast_acc.
    assert (K : abs (many_fast (fast E (S N) p) N false [] s j (ok_ctx o1)) = Some (PSucc l k)).
    { eapply abs_lef; [|rewrite <- Hx, <- (Hn2 (S N)) by lia; reflexivity].
      rewrite fast_many. apply lef_many_fast; auto. intros; apply fast_lef; lia. }
    apply abs_succ in K as (o2 & K & K1 & K2). rewrite K. cbn. congruence.
  - destruct (reach_succ _ _ _ _ _ _ (proj2 Hg0) Hi Hc (IHpeg1 (proj2 Hg0) Hi c Hc Hm))
      as (n & o1 & Hn & Hv & Hj & Hb & Hcon & Hc' & Hm').
    destruct (reach_any _ _ _ _ _ (IHpeg2 Hg (proj2 Hb) (ok_ctx o1) Hc' ltac:(congruence)))
      as (n2 & x & Hn2 & Hx).
    pose (N := n + n2). exists (S (S N)). rewrite fast_many, many_fast_S, Hn by lia.
    cbn [obind]. assert (Hlt : Nat.ltb i j = true) by (apply Nat.ltb_lt; auto). rewrite Hcon, Hlt, Hj, Hv.
    rewrite many_fast_acc.
    assert (K : abs (many_fast (fast E (S N) p) N false [] s j (ok_ctx o1)) = Some (PFail b)).
    { eapply abs_lef; [|rewrite <- Hx, <- (Hn2 (S N)) by lia; reflexivity].
      rewrite fast_many. apply lef_many_fast; auto. intros; apply fast_lef; lia. }
    apply abs_fail in K as (o2 & K & K1). rewrite K. cbn. congruence.
  - destruct (reach_succ _ _ _ _ _ _ (proj2 Hg0) Hi Hc (IHpeg1 (proj2 Hg0) Hi c Hc Hm))
      as (n & o1 & Hn & Hv & Hj & Hb & Hcon & Hc' & Hm').
    destruct (reach_any _ _ _ _ _ (IHpeg2 Hg (proj2 Hb) (ok_ctx o1) Hc' ltac:(congruence)))
      as (n2 & x & Hn2 & Hx).
    pose (N := n + n2). exists (S (S N)). rewrite fast_many, many_fast_S, Hn by lia.
    cbn [obind]. assert (Hlt : Nat.ltb i j = true) by (apply Nat.ltb_lt; auto). rewrite Hcon, Hlt, Hj, Hv.
    rewrite many_fast_acc.
    assert (K : abs (many_fast (fast E (S N) p) N false [] s j (ok_ctx o1)) = Some (PExn e)).
    { eapply abs_lef; [|rewrite <- Hx, <- (Hn2 (S N)) by lia; reflexivity].
      rewrite fast_many. apply lef_many_fast; auto. intros; apply fast_lef; lia. }
    apply abs_exn in K. rewrite K. reflexivity.
  - destruct (reach_succ _ _ _ _ _ _ (proj2 Hg0) Hi Hc (IHpeg (proj2 Hg0) Hi c Hc Hm))
      as (n & o1 & Hn & Hv & Hj & Hb & Hcon & _).
    exists (S (S n)). rewrite fast_many, many_fast_S, Hn by auto. cbn. rewrite Hcon, Nat.ltb_irrefl. reflexivity.
  - destruct (reach_fail _ _ _ _ _ (IHpeg (proj2 Hg0) Hi c Hc Hm)) as (n & e & Hn & He).
    exists (S (S n)). rewrite fast_many, many_fast_S, Hn by auto. cbn. rewrite He. reflexivity.
  - destruct (reach_fail _ _ _ _ _ (IHpeg (proj2 Hg0) Hi c Hc Hm)) as (n & e & Hn & He).
    exists (S (S n)). rewrite fast_many, many_fast_S, Hn by auto. cbn. rewrite He. cbn. congruence.
  - destruct (reach_exn _ _ _ _ _ (IHpeg (proj2 Hg0) Hi c Hc Hm)) as (n & Hn).
    exists (S (S n)). rewrite fast_many, many_fast_S, Hn by auto. reflexivity.
  - (* attempt *) destruct (reach_succ _ _ _ _ _ _ (proj2 Hg0) Hi Hc (IHpeg (proj2 Hg0) Hi c Hc Hm))
      as (n & o & Hn & Hv & Hj & _).
    exists (S n). cbn [fast]. unfold attempt_fast. rewrite Hn by auto. cbn. congruence.
  - destruct (reach_fail _ _ _ _ _ (IHpeg (proj2 Hg0) Hi c Hc Hm)) as (n & e & Hn & He).
    exists (S n). cbn [fast]. unfold attempt_fast. rewrite Hn by auto. reflexivity.
  - destruct (reach_exn _ _ _ _ _ (IHpeg (proj2 Hg0) Hi c Hc Hm)) as (n & Hn).
    exists (S n). cbn [fast]. unfold attempt_fast. rewrite Hn by auto. reflexivity.
  - (* label *) destruct (IHpeg (proj2 Hg0) Hi c Hc Hm) as [n Hn].
    exists (S n). cbn [fast]. unfold label_fast. destruct (fast E n p s i c); cbn [obind]; auto.
    rewrite abs_set_exp. exact Hn.
  - destruct (IHpeg (proj2 Hg0) Hi c Hc Hm) as [n Hn]. exists (S n). exact Hn.
  - destruct (IHpeg (proj2 Hg0) Hi c Hc Hm) as [n Hn]. exists (S n). exact Hn.
  - destruct (IHpeg (proj2 Hg0) Hi c Hc Hm) as [n Hn]. exists (S n). exact Hn.
  - (* block *)
    destruct (cs_col _ _ _ _ _ CS i c (proj2 (gall_node _ _ _ Hg) I) Hc Hi) as [_ Hcl]. red in Hcl.
    pose proof (cs_upd _ _ _ _ _ CS i i c Hc ltac:(unfold len in *; lia)) as Hcu.
    destruct (IHpeg (proj2 Hg0) Hi (set_mark (update_loc c s i) (col i))
      (cs_mark _ _ _ _ _ CS _ _ _ Hcu) eq_refl) as [n Hn].
    exists (S n). cbn [fast]. unfold block_fast. rewrite Hcl.
    change (loc_col (locof i)) with (col i).
    destruct (fast E n p s i _); cbn [obind]; auto. rewrite abs_set_ctx. exact Hn.
  - (* aligned *)
    destruct (cs_col _ _ _ _ _ CS i c (proj2 (gall_node _ _ _ Hg) I) Hc Hi) as [_ Hcl]. red in Hcl.
    pose proof (cs_upd _ _ _ _ _ CS i i c Hc ltac:(unfold len in *; lia)) as Hcu.
    destruct (IHpeg (proj2 Hg0) Hi (update_loc c s i) Hcu ltac:(rewrite upd_mark'; auto)) as [n Hn].
    exists (S n). cbn [fast]. unfold aligned_fast. rewrite Hcl, upd_mark'.
    change (loc_col (locof i)) with (col i). rewrite Hm, H, Z.eqb_refl. exact Hn.
  - destruct (cs_col _ _ _ _ _ CS i c (proj2 (gall_node _ _ _ Hg) I) Hc Hi) as [_ Hcl]. red in Hcl.
    exists 1. cbn [fast]. unfold aligned_fast. rewrite Hcl, upd_mark'.
    change (loc_col (locof i)) with (col i).
    destruct (Z.eqb_spec (ctx_mark c) (col i)); [congruence|reflexivity].
  - (* indented *)
    destruct (cs_col _ _ _ _ _ CS i c (proj2 (gall_node _ _ _ Hg) I) Hc Hi) as [_ Hcl]. red in Hcl.
    pose proof (cs_upd _ _ _ _ _ CS i i c Hc ltac:(unfold len in *; lia)) as Hcu.
    destruct (IHpeg (proj2 Hg0) Hi (set_mark (update_loc c s i) (col i))
      (cs_mark _ _ _ _ _ CS _ _ _ Hcu) eq_refl) as [n Hn].
    exists (S n). cbn [fast]. unfold indented_fast. rewrite Hcl, upd_mark'.
    change (loc_col (locof i)) with (col i). rewrite Hm, <- H, Z.eqb_refl.
    destruct (fast E n p s i _); cbn [obind]; auto. rewrite abs_set_ctx. exact Hn.
  - destruct (cs_col _ _ _ _ _ CS i c (proj2 (gall_node _ _ _ Hg) I) Hc Hi) as [_ Hcl]. red in Hcl.
    exists 1. cbn [fast]. unfold indented_fast. rewrite Hcl, upd_mark'.
    change (loc_col (locof i)) with (col i).
    destruct (Z.eqb_spec (ctx_mark c + delta) (col i)); [congruence|reflexivity].
  - (* delay *) destruct (IHpeg (HE d) Hi c Hc Hm) as [n Hn]. exists (S n). exact Hn.
  - exists 1. reflexivity.
Qed.

End PegProofs.
