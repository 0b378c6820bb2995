(** The plain interpreter computes exactly the declarative semantics with diagnostics. *)
From Verif Require Export DiagSpec PegProofs.

Section DiagProofs.
Context {T : Type} {V : nat -> Type}.
Variable E : env T V.
Variable s : list T.
Variable get : loc -> list T -> nat -> loc.
Variable locof : nat -> loc.
Variable lay : Prop.
Hypothesis Hco : cohere get s locof.
Hypothesis Hlay : lay -> exactpos s locof.
Hypothesis HE : forall d, gok lay (E d).
Let col (i : nat) : Z := loc_col (locof i).
Let CS := pos_system s get locof lay Hco Hlay.
Let Cok := pos_Cok (T:=T) get locof.
Let len := List.length s.

Definition dabs {A} (x : out (sres T A)) : option (dres A) :=
  match x with
  | Ret (SOk o) => Some (DSucc (ok_val o) (ok_pos o) (ok_exp o))
  | Ret (SErr e) => Some (DFail (er_con e) (er_loc e) (er_exp e))
  | Raise e => Some (DExn e)
  | NoFuel => None
  end.

Lemma dabs_succ {A} (x : out (sres T A)) v j X : dabs x = Some (DSucc v j X) ->
  exists o, x = Ret (SOk o) /\ ok_val o = v /\ ok_pos o = j /\ ok_exp o = X.
Proof. destruct x as [[o|e]|e|]; simpl; intros H; try discriminate. injection H as <- <- <-. eauto 6. Qed.
Lemma dabs_fail {A} (x : out (sres T A)) b l X : dabs x = Some (DFail b l X) ->
  exists e, x = Ret (SErr e) /\ er_con e = b /\ er_loc e = l /\ er_exp e = X.
Proof. destruct x as [[o|e]|e|]; simpl; intros H; try discriminate. injection H as <- <- <-. eauto 6. Qed.
Lemma dabs_exn {A} (x : out (sres T A)) e : dabs x = Some (DExn e) -> x = Raise e.
Proof. destruct x as [[o|?]|?|]; simpl; intros H; try discriminate. injection H as <-. reflexivity. Qed.
Lemma dabs_lef {A} (x y : out (sres T A)) o : lef x y -> dabs x = Some o -> dabs y = Some o.
Proof. intros [->| ->]; [discriminate|auto]. Qed.

Lemma good_ok n A (g : gram T V A) pos c o :
  gok lay g -> pos <= len -> Cok pos c -> fast E n g s pos c = Ret (SOk o) ->
  pos <= ok_pos o <= len /\ ok_con o = Nat.ltb pos (ok_pos o) /\
  Cok (ok_pos o) (ok_ctx o) /\ ctx_mark (ok_ctx o) = ctx_mark c.
Proof. apply (PegProofs.good_ok E s get locof lay Hco Hlay HE). Qed.

Lemma Cloc pos c : Cok pos c -> pos <= len -> get_loc c s pos = locof pos.
Proof. intros. apply (cs_loc _ _ _ _ _ CS); auto. Qed.

Definition okcon {A} (j : nat) (r : sres T A) : Prop :=
  match r with SOk o => ok_con o = Nat.ltb j (ok_pos o) | SErr _ => True end.
Lemma dabs_prepend {A} i j X (b : bool) (r : sres T A) : b = Nat.ltb i j -> okcon j r ->
  dabs (Ret (sres_prepend X b r)) = option_map (d_after i j X) (dabs (Ret r)).
Proof.
  intros -> H. destruct r as [o|e]; simpl in *.
  - unfold ok_prepend. rewrite <- H. destruct (ok_con o); reflexivity.
  - unfold er_prepend. destruct (er_con e) eqn:K; simpl; rewrite ?K; reflexivity.
Qed.
Lemma dabs_set_exp {A} i x (r : sres T A) : okcon i r ->
  dabs (Ret (sres_set_exp [x] r)) = option_map (d_label i x) (dabs (Ret r)).
Proof.
  intros H. destruct r as [o|e]; simpl in *.
  - unfold ok_set_exp. rewrite <- H. destruct (ok_con o); reflexivity.
  - unfold er_set_exp. destruct (er_con e) eqn:K; simpl; rewrite ?K; reflexivity.
Qed.
Lemma fast_okcon n A (g : gram T V A) pos c r :
  gok lay g -> pos <= len -> Cok pos c -> fast E n g s pos c = Ret r -> okcon pos r.
Proof. intros. destruct r; simpl; auto. eapply good_ok; eauto. Qed.
Lemma dabs_set_ctx {A} x (r : sres T A) : dabs (Ret (sres_set_ctx x r)) = dabs (Ret r).
Proof. destruct r; reflexivity. Qed.

Lemma upd_mark' c pos : ctx_mark (update_loc c s pos) = ctx_mark c.
Proof. unfold update_loc. destruct (Z.eqb _ _); reflexivity. Qed.

Lemma many_sound A (p : gram T V A) (F : pfast T A) : gok lay p ->
  (forall pos c o, pos <= len -> Cok pos c -> dabs (F s pos c) = Some o ->
     diag E s locof A p (ctx_mark c) pos o) ->
  (forall pos c o, pos <= len -> Cok pos c -> F s pos c = Ret (SOk o) ->
     pos <= ok_pos o <= len /\ ok_con o = Nat.ltb pos (ok_pos o) /\
     Cok (ok_pos o) (ok_ctx o) /\ ctx_mark (ok_ctx o) = ctx_mark c) ->
  forall n pos c o, pos <= len -> Cok pos c ->
  dabs (many_fast F n false [] s pos c) = Some o ->
  diag E s locof _ (GMany p) (ctx_mark c) pos o.
Proof.
  intros Hp HF HG n. induction n as [|n IH]; cbn [many_fast]; intros pos c o Hpos Hc H; [discriminate|].
  destruct (F s pos c) as [[o1|e]|e|] eqn:HFe; cbn [obind] in H; [| | |discriminate].
  - pose proof (HG _ _ _ Hpos Hc HFe) as (G1 & G2 & G3 & G4).
    pose proof (HF pos c _ Hpos Hc ltac:(rewrite HFe; reflexivity)) as P1. simpl in P1.
    destruct (ok_con o1).
    + symmetry in G2. apply Nat.ltb_lt in G2.
      rewrite many_fast_acc in H.
      destruct (many_fast F n false [] s (ok_pos o1) (ok_ctx o1)) as [[o2|e2]|e2|] eqn:HM;
        cbn in H; [| | |discriminate]; injection H as <-.
      * assert (P2 := IH (ok_pos o1) (ok_ctx o1) _ ltac:(lia) G3 ltac:(rewrite HM; reflexivity)).
        rewrite G4 in P2. eapply dg_many_more; eauto.
      * assert (P2 := IH (ok_pos o1) (ok_ctx o1) _ ltac:(lia) G3 ltac:(rewrite HM; reflexivity)).
        rewrite G4 in P2. eapply dg_many_more_fail; eauto.
      * assert (P2 := IH (ok_pos o1) (ok_ctx o1) _ ltac:(lia) G3 ltac:(rewrite HM; reflexivity)).
        rewrite G4 in P2. eapply dg_many_more_exn; eauto.
    + cbn in H. injection H as <-. symmetry in G2. apply Nat.ltb_ge in G2.
      assert (ok_pos o1 = pos) by lia. rewrite H in P1. eapply dg_many_empty; eauto.
  - pose proof (HF pos c _ Hpos Hc ltac:(rewrite HFe; reflexivity)) as P1. simpl in P1.
    destruct (er_con e) eqn:He; cbn in H; injection H as <-.
    + rewrite He. apply dg_many_fail; auto.
    + eapply dg_many_stop; eauto.
  - pose proof (HF pos c _ Hpos Hc ltac:(rewrite HFe; reflexivity)) as P1. simpl in P1.
    injection H as <-. apply dg_many_exn; auto.
Qed.

Theorem diag_sound n : forall A (g : gram T V A) pos c o,
  gok lay g -> pos <= len -> Cok pos c ->
  dabs (fast E n g s pos c) = Some o -> diag E s locof A g (ctx_mark c) pos o.
Proof.
  induction n as [|n IH]; intros A g pos c o Hg Hpos Hc H; [discriminate|].
  assert (Hcol : is_layout A g -> loc_col (ctx_loc (update_loc c s pos)) = col pos).
  { intros HL. pose proof (gall_node _ _ _ Hg) as [_ HL'].
    destruct (cs_col _ _ _ _ _ CS pos c (HL' HL) Hc Hpos) as [_ K]. exact K. }
  assert (Hloc : is_layout A g -> ctx_loc (update_loc c s pos) = locof pos).
  { intros HL. pose proof (gall_node _ _ _ Hg) as [_ HL'].
    destruct (cs_col _ _ _ _ _ CS pos c (HL' HL) Hc Hpos) as [K _]. exact K. }
  pose proof (cs_upd _ _ _ _ _ CS pos pos c Hc ltac:(unfold len in *; lia)) as Hcu.
  pose proof (Cloc pos c Hc Hpos) as HL0.
  destruct g; cbn [fast] in H; simpl in Hg.
  - injection H as <-. apply dg_pure.
  - unfold purefn_fast in H. destruct (f tt) as [v|e|] eqn:Hf; cbn in H; [| |discriminate]; injection H as <-.
    + apply dg_purefn; auto.
    + apply dg_purefn_exn; auto.
  - injection H as <-. cbn. rewrite HL0. apply dg_unexpected.
  - unfold eof_fast in H. destruct (Nat.eqb_spec pos (List.length s)); injection H as <-; cbn.
    + subst pos. apply dg_eof.
    + rewrite HL0. apply dg_eof_fail; auto.
  - unfold satisfy_fast, probe_tok in H. destruct (nth_error s pos) as [t|] eqn:Hn.
    + destruct (test t) as [[]|e|] eqn:Ht; cbn in H; try discriminate; injection H as <-; rewrite ?HL0.
      * eapply dg_sat; eauto.
      * eapply dg_sat_no; eauto.
      * eapply dg_sat_exn; eauto.
    + cbn in H. injection H as <-. rewrite HL0. apply dg_sat_end; auto.
  - unfold sym_fast, probe_sym in H. destruct (nth_error s pos) as [t|] eqn:Hn.
    + destruct (teq t x) eqn:Ht; injection H as <-; cbn; rewrite ?HL0.
      * apply dg_sym; auto.
      * apply dg_sym_no. intros t'. rewrite Hn. congruence.
    + cbn in H. injection H as <-. rewrite HL0. apply dg_sym_no. rewrite Hn. discriminate.
  - unfold literal_fast in H. destruct (starts_with teq x s pos) eqn:Hs; injection H as <-; cbn; rewrite ?HL0.
    + apply dg_lit; auto.
    + apply dg_lit_no; auto.
  - unfold regexp_fast, probe_re in H. destruct (m s pos) as [[e [v|]]|] eqn:Hm; injection H as <-; cbn; rewrite ?HL0.
    + apply dg_re; auto.
    + apply dg_re_no. intros (e' & v & K). congruence.
    + apply dg_re_no. intros (e' & v & K). congruence.
  - (* fmap *) unfold fmap_fast in H. destruct Hg as [_ Hg].
    destruct (fast E n g s pos c) as [[o1|e]|e|] eqn:HF; cbn in H; try discriminate.
    + pose proof (IH _ _ _ _ _ Hg Hpos Hc ltac:(rewrite HF; reflexivity)) as P. cbn in P.
      unfold ok_fmap in H. destruct (f (ok_val o1)) as [w|e|] eqn:Hf; cbn in H; try discriminate; injection H as <-.
      * eapply dg_fmap; eauto.
      * eapply dg_fmap_raise; eauto.
    + pose proof (IH _ _ _ _ _ Hg Hpos Hc ltac:(rewrite HF; reflexivity)) as P. cbn in P.
      injection H as <-. apply dg_fmap_fail; auto.
    + pose proof (IH _ _ _ _ _ Hg Hpos Hc ltac:(rewrite HF; reflexivity)) as P. cbn in P.
      injection H as <-. apply dg_fmap_exn; auto.
  - (* alt *) unfold alt_fast in H. destruct Hg as [_ [Hg1 Hg2]].
    destruct (fast E n g1 s pos c) as [[o1|e]|e|] eqn:HF; cbn in H; try discriminate;
      pose proof (IH _ _ _ _ _ Hg1 Hpos Hc ltac:(rewrite HF; reflexivity)) as P; cbn in P.
    + injection H as <-. apply dg_alt_l; auto.
    + destruct (er_con e) eqn:He.
      * cbn in H. rewrite He in H. injection H as <-. apply dg_alt_fail; auto.
      * assert (K : exists o2, dabs (fast E n g2 s pos c) = Some o2 /\ o = d_else pos (er_loc e) (er_exp e) o2).
        { pose proof (fun r => fast_okcon n A g2 pos c r Hg2 Hpos Hc) as OC.
          destruct (fast E n g2 s pos c) as [[o2|e2]|e2|]; cbn in H |- *; try discriminate.
          - specialize (OC _ eq_refl). cbn in OC. eexists. split; [reflexivity|]. cbn. rewrite <- OC.
            unfold ok_set_exp in H. destruct (ok_con o2) eqn:H2; cbn in H; rewrite ?H2 in H; injection H as <-; reflexivity.
          - eexists. split; [reflexivity|].
            destruct (er_con e2) eqn:H2; cbn in H; rewrite ?H2 in H; injection H as <-; cbn; reflexivity.
          - eexists. split; [reflexivity|]. cbn. congruence. }
        destruct K as (o2 & K & ->). eapply dg_alt_r; eauto.
    + injection H as <-. apply dg_alt_exn; auto.
  - (* bind *) unfold bind_fast in H. destruct Hg as [_ [Hg1 Hg2]].
    destruct (fast E n g s pos c) as [[o1|e]|e|] eqn:HF; cbn [obind] in H; try discriminate;
      pose proof (IH _ _ _ _ _ Hg1 Hpos Hc ltac:(rewrite HF; reflexivity)) as P; cbn in P.
    + destruct (good_ok _ _ _ _ _ _ Hg1 Hpos Hc HF) as (G1 & G2 & G3 & G4).
      assert (K : exists o2, dabs (fast E n (f (ok_val o1)) s (ok_pos o1) (ok_ctx o1)) = Some o2 /\
        o = d_after pos (ok_pos o1) (ok_exp o1) o2).
      { pose proof (fun r => fast_okcon n _ (f (ok_val o1)) (ok_pos o1) (ok_ctx o1) r (Hg2 _) (proj2 G1) G3) as OC.
        destruct (fast E n (f (ok_val o1)) s (ok_pos o1) (ok_ctx o1)) as [r|e|] eqn:HF2;
          cbn [obind] in H; try discriminate.
        - rewrite (dabs_prepend pos (ok_pos o1)) in H by auto.
          destruct (dabs (Ret r)) as [o2|]; [|discriminate]. eexists; split; [reflexivity|].
          cbn in H. congruence.
        - eexists. split; [reflexivity|]. cbn in *. congruence. }
      destruct K as (o2 & K & ->). eapply dg_bind; [exact P|].
      rewrite <- G4. apply IH; [apply Hg2|lia|auto|exact K].
    + injection H as <-. apply dg_bind_fail; auto.
    + injection H as <-. apply dg_bind_exn; auto.
  - (* seq *) unfold seq_fast in H. destruct Hg as [_ [Hg1 Hg2]].
    destruct (fast E n g1 s pos c) as [[o1|e]|e|] eqn:HF; cbn [obind] in H; try discriminate;
      pose proof (IH _ _ _ _ _ Hg1 Hpos Hc ltac:(rewrite HF; reflexivity)) as P; cbn in P.
    + destruct (good_ok _ _ _ _ _ _ Hg1 Hpos Hc HF) as (G1 & G2 & G3 & G4).
      assert (exists o2, dabs (fast E n g2 s (ok_pos o1) (ok_ctx o1)) = Some o2 /\
        o = on_dvalue (merge (ok_val o1)) (d_after pos (ok_pos o1) (ok_exp o1) o2)) as (o2 & K1 & ->).
      { pose proof (fun r => fast_okcon n _ g2 (ok_pos o1) (ok_ctx o1) r Hg2 (proj2 G1) G3) as OC.
        destruct (fast E n g2 s (ok_pos o1) (ok_ctx o1)) as [[o2|e2]|e2|] eqn:HF2;
          cbn [obind sres_fmap ok_fmap] in H; try discriminate.
        - rewrite (dabs_prepend pos (ok_pos o1)) in H by (auto; exact (OC _ eq_refl)).
          eexists. split; [reflexivity|]. cbn in H |- *. congruence.
        - rewrite (dabs_prepend pos (ok_pos o1)) in H by (auto; exact I).
          eexists. split; [reflexivity|]. cbn in H |- *. destruct (er_con e2); cbn in *; congruence.
        - injection H as <-. eexists. split; reflexivity. }
      eapply dg_seq; eauto. rewrite <- G4. eapply IH; eauto. lia.
    + injection H as <-. apply dg_seq_fail; auto.
    + injection H as <-. apply dg_seq_exn; auto.
  - (* maybe *) unfold maybe_fast in H. destruct Hg as [_ Hg].
    destruct (fast E n g s pos c) as [[o1|e]|e|] eqn:HF; cbn in H; try discriminate;
      pose proof (IH _ _ _ _ _ Hg Hpos Hc ltac:(rewrite HF; reflexivity)) as P; cbn in P.
    + injection H as <-. apply dg_maybe; auto.
    + destruct (er_con e) eqn:He; cbn in H; rewrite ?He in H; injection H as <-.
      * apply dg_maybe_fail; auto.
      * eapply dg_maybe_none; eauto.
    + injection H as <-. apply dg_maybe_exn; auto.
  - (* many *) destruct Hg as [_ Hg]. eapply many_sound; eauto.
    intros. eapply good_ok; eauto.
  - (* attempt *) unfold attempt_fast in H. destruct Hg as [_ Hg].
    destruct (fast E n g s pos c) as [[o1|e]|e|] eqn:HF; cbn in H; try discriminate;
      pose proof (IH _ _ _ _ _ Hg Hpos Hc ltac:(rewrite HF; reflexivity)) as P; cbn in P;
      injection H as <-.
    + apply dg_attempt; auto.
    + eapply dg_attempt_fail; eauto.
    + apply dg_attempt_exn; auto.
  - (* label *) unfold label_fast in H. destruct Hg as [_ Hg].
    pose proof (fun r => fast_okcon n A g pos c r Hg Hpos Hc) as OC.
    assert (K : exists o2, dabs (fast E n g s pos c) = Some o2 /\ o = d_label pos x o2).
    { destruct (fast E n g s pos c) as [r|e|]; cbn [obind] in H; try discriminate.
      - rewrite (dabs_set_exp pos) in H by auto.
        destruct (dabs (Ret r)) as [o2|]; [|discriminate]. eexists; split; [reflexivity|]. cbn in H. congruence.
      - cbn in H. eexists; split; [reflexivity|]. cbn. congruence. }
    destruct K as (o2 & K & ->). apply dg_label. auto.
  - destruct Hg as [_ Hg]. apply dg_recover. apply IH; auto.
  - destruct Hg as [_ Hg]. apply dg_with. apply IH; auto.
  - destruct Hg as [_ Hg]. apply dg_withfn. apply IH; auto.
  - (* block *) unfold block_fast in H. destruct Hg as [_ Hg]. apply dg_block.
    change (loc_col (locof pos)) with (col pos). rewrite <- Hcol by exact I.
    set (c1 := update_loc c s pos) in *.
    change (loc_col (ctx_loc c1)) with (ctx_mark (set_mark c1 (loc_col (ctx_loc c1)))).
    apply IH; auto.
    destruct (fast E n g s pos (set_mark c1 (loc_col (ctx_loc c1)))); cbn [obind] in H; auto.
    rewrite dabs_set_ctx in H. exact H.
  - (* aligned *) unfold aligned_fast in H. destruct Hg as [_ Hg].
    rewrite upd_mark', (Hcol I), (Hloc I) in H.
    destruct (Z.eqb_spec (ctx_mark c) (col pos)) as [He|He].
    + apply dg_aligned; auto. rewrite <- (upd_mark' c pos). apply IH; auto.
    + injection H as <-. apply dg_aligned_no. auto.
  - (* indented *) unfold indented_fast in H. destruct Hg as [_ Hg].
    rewrite upd_mark', (Hcol I), (Hloc I) in H.
    destruct (Z.eqb_spec (ctx_mark c + delta) (col pos)) as [He|He].
    + apply dg_indented; auto.
      change (loc_col (locof pos)) with (ctx_mark (set_mark (update_loc c s pos) (col pos))).
      apply IH; auto.
      destruct (fast E n g s pos (set_mark (update_loc c s pos) (col pos))); cbn [obind] in H; auto.
      rewrite dabs_set_ctx in H. exact H.
    + injection H as <-. apply dg_indented_no. auto.
  - apply dg_delay. apply IH; auto.
  - injection H as <-. apply dg_undef.
Qed.

(** ** Completeness *)
Definition reach {A} (g : gram T V A) pos c o : Prop :=
  exists n, dabs (fast E n g s pos c) = Some o.

Lemma reach_le A (g : gram T V A) pos c o n m :
  dabs (fast E n g s pos c) = Some o -> n <= m -> dabs (fast E m g s pos c) = Some o.
Proof. intros H Hm. eapply dabs_lef; [apply (fast_lef E n m Hm)|exact H]. Qed.

Lemma reach_succ A (g : gram T V A) pos c v j X : gok lay g -> pos <= len -> Cok pos c ->
  reach g pos c (DSucc v j X) ->
  exists n o, (forall m, n <= m -> fast E m g s pos c = Ret (SOk o)) /\
    ok_val o = v /\ ok_pos o = j /\ ok_exp o = X /\ pos <= j <= len /\ ok_con o = Nat.ltb pos j /\
    Cok j (ok_ctx o) /\ ctx_mark (ok_ctx o) = ctx_mark c.
Proof.
  intros Hg Hp Hc [n H]. apply dabs_succ in H as (o & H & H1 & H2 & H3).
  pose proof (good_ok _ _ _ _ _ _ Hg Hp Hc H) as (G1 & G2 & G3 & G4).
  subst j v. exists n, o. split; [|auto 10].
  intros m Hm. eapply fast_mono; eauto. discriminate.
Qed.
Lemma reach_fail A (g : gram T V A) pos c b l X : reach g pos c (DFail b l X) ->
  exists n, forall m, n <= m -> fast E m g s pos c = Ret (SErr (Err l X b)).
Proof.
  intros [n H]. apply dabs_fail in H as (e & H & H1 & H2 & H3). exists n.
  destruct e; cbn in *; subst.
  intros m Hm. eapply fast_mono; eauto. discriminate.
Qed.
Lemma reach_exn A (g : gram T V A) pos c e : reach g pos c (DExn e) ->
  exists n, forall m, n <= m -> fast E m g s pos c = Raise e.
Proof.
  intros [n H]. apply dabs_exn in H. exists n.
  intros m Hm. eapply fast_mono; eauto. discriminate.
Qed.
Lemma reach_any A (g : gram T V A) pos c o : reach g pos c o ->
  exists n x, (forall m, n <= m -> fast E m g s pos c = x) /\ dabs x = Some o.
Proof.
  intros [n H]. exists n, (fast E n g s pos c). split; auto.
  intros m Hm. eapply fast_mono; eauto. intros K. rewrite K in H. discriminate.
Qed.

Lemma fast_many A (p : gram T V A) n pos c :
  fast E (S n) (GMany p) s pos c = many_fast (fast E n p) n false [] s pos c.
Proof. reflexivity. Qed.
Lemma many_fast_S A (p : pfast T A) n con v pos c :
  many_fast p (S n) con v s pos c =
  (r <- p s pos c ;;
   match r with
   | SOk o =>
       if ok_con o then
         many_fast p n true (v ++ [ok_val o]) s (ok_pos o) (ok_ctx o)
       else Raise ManyEmpty
   | SErr e =>
       if er_con e then Ret (SErr e)
       else Ret (SOk (Ok v pos c (er_exp e) con))
   end).
Proof. reflexivity. Qed.

Lemma reach_okcon A (g : gram T V A) i c n (r : sres T A) :
  gok lay g -> i <= len -> Cok i c -> (forall m, n <= m -> fast E m g s i c = Ret r) -> okcon i r.
Proof. intros Hg Hi Hc H. eapply (fast_okcon n); eauto. Qed.

Theorem diag_complete A (g : gram T V A) m i o :
  diag E s locof A g m i o -> gok lay g -> i <= len ->
  forall c, Cok i c -> ctx_mark c = m -> reach g i c o.
Proof.
  induction 1; intros Hg Hi c Hc Hm; pose proof Hg as Hg0; simpl in Hg0;
    pose proof (Cloc _ c Hc Hi) as HL0.
  - exists 1. reflexivity.
  - exists 1. cbn. unfold purefn_fast. rewrite H. reflexivity.
  - exists 1. cbn. unfold purefn_fast. rewrite H. reflexivity.
  - exists 1. cbn. rewrite HL0. reflexivity.
  - exists 1. cbn. unfold eof_fast. rewrite Nat.eqb_refl. reflexivity.
  - exists 1. cbn. unfold eof_fast. destruct (Nat.eqb_spec i (List.length s)); [contradiction|].
    cbn. rewrite HL0. reflexivity.
  - exists 1. cbn. unfold satisfy_fast, probe_tok. rewrite H. cbn. rewrite H0. reflexivity.
  - exists 1. cbn. unfold satisfy_fast, probe_tok. rewrite H. cbn. rewrite H0. cbn. rewrite HL0. reflexivity.
  - exists 1. cbn. unfold satisfy_fast, probe_tok. rewrite H. cbn. rewrite HL0. reflexivity.
  - exists 1. cbn. unfold satisfy_fast, probe_tok. rewrite H. cbn. rewrite H0. reflexivity.
  - exists 1. cbn. unfold sym_fast, probe_sym. rewrite H. cbn. rewrite H0. reflexivity.
  - exists 1. cbn. unfold sym_fast, probe_sym. destruct (nth_error s i) as [t|] eqn:Hn; cbn.
    + rewrite (H t eq_refl). cbn. rewrite HL0. reflexivity.
    + rewrite HL0. reflexivity.
  - exists 1. cbn. unfold literal_fast. change (starts_with teq x s i) with (stands_at teq x s i). rewrite H. reflexivity.
  - exists 1. cbn. unfold literal_fast. change (starts_with teq x s i) with (stands_at teq x s i). rewrite H. cbn. rewrite HL0. reflexivity.
  - exists 1. cbn. unfold regexp_fast, probe_re. rewrite H. reflexivity.
  - exists 1. cbn. unfold regexp_fast, probe_re. destruct (re s i) as [[e [v|]]|] eqn:Hr;
      try (cbn; rewrite HL0; reflexivity).
    exfalso. apply H. exists e, v. auto.
  - (* fmap *) destruct (reach_succ _ _ _ _ _ _ _ (proj2 Hg0) Hi Hc (IHdiag (proj2 Hg0) Hi c Hc Hm))
      as (n & o & Hn & Hv & Hj & HX & _).
    exists (S n). cbn [fast]. unfold fmap_fast. rewrite Hn by auto. cbn. unfold ok_fmap.
    rewrite Hv, H0. cbn. congruence.
  - destruct (reach_succ _ _ _ _ _ _ _ (proj2 Hg0) Hi Hc (IHdiag (proj2 Hg0) Hi c Hc Hm))
      as (n & o & Hn & Hv & Hj & _).
    exists (S n). cbn [fast]. unfold fmap_fast. rewrite Hn by auto. cbn. unfold ok_fmap.
    rewrite Hv, H0. reflexivity.
  - destruct (reach_fail _ _ _ _ _ _ _ (IHdiag (proj2 Hg0) Hi c Hc Hm)) as (n & Hn).
    exists (S n). cbn [fast]. unfold fmap_fast. rewrite Hn by auto. reflexivity.
  - destruct (reach_exn _ _ _ _ _ (IHdiag (proj2 Hg0) Hi c Hc Hm)) as (n & Hn).
    exists (S n). cbn [fast]. unfold fmap_fast. rewrite Hn by auto. reflexivity.
  - (* alt *) destruct (reach_succ _ _ _ _ _ _ _ (proj1 (proj2 Hg0)) Hi Hc
      (IHdiag (proj1 (proj2 Hg0)) Hi c Hc Hm)) as (n & o & Hn & Hv & Hj & HX & _).
    exists (S n). cbn [fast]. unfold alt_fast. rewrite Hn by auto. cbn. congruence.
  - destruct (reach_fail _ _ _ _ _ _ _ (IHdiag (proj1 (proj2 Hg0)) Hi c Hc Hm)) as (n & Hn).
    exists (S n). cbn [fast]. unfold alt_fast. rewrite Hn by auto. reflexivity.
  - destruct (reach_exn _ _ _ _ _ (IHdiag (proj1 (proj2 Hg0)) Hi c Hc Hm)) as (n & Hn).
    exists (S n). cbn [fast]. unfold alt_fast. rewrite Hn by auto. reflexivity.
  - destruct (reach_fail _ _ _ _ _ _ _ (IHdiag1 (proj1 (proj2 Hg0)) Hi c Hc Hm)) as (n & Hn).
    destruct (reach_any _ _ _ _ _ (IHdiag2 (proj2 (proj2 Hg0)) Hi c Hc Hm)) as (n2 & x & Hn2 & Hx).
    exists (S (n + n2)). cbn [fast]. unfold alt_fast. rewrite Hn, Hn2 by lia. cbn.
    destruct x as [[o2|e2]|e2|]; cbn in Hx |- *; try discriminate; injection Hx as <-; cbn.
    + pose proof (reach_okcon _ _ _ _ _ _ (proj2 (proj2 Hg0)) Hi Hc Hn2) as OC. cbn in OC.
      rewrite <- OC. unfold ok_set_exp. destruct (ok_con o2); reflexivity.
    + destruct (er_con e2) eqn:H2; cbn; rewrite ?H2; reflexivity.
    + reflexivity.
  - (* bind *) destruct (reach_succ _ _ _ _ _ _ _ (proj1 (proj2 Hg0)) Hi Hc
      (IHdiag1 (proj1 (proj2 Hg0)) Hi c Hc Hm)) as (n & o1 & Hn & Hv & Hj & HX & Hb & Hcon & Hc' & Hm').
    destruct (reach_any _ _ _ _ _ (IHdiag2 (proj2 (proj2 Hg0) v) (proj2 Hb) (ok_ctx o1) Hc'
      ltac:(congruence))) as (n2 & x & Hn2 & Hx).
    exists (S (n + n2)). cbn [fast]. unfold bind_fast. rewrite Hn by lia. cbn [obind].
    rewrite Hv, Hj, Hn2 by lia.
    destruct x as [r|e2|]; cbn [obind]; [|cbn in Hx |- *; injection Hx as <-; reflexivity|discriminate].
    pose proof (reach_okcon _ _ _ _ _ _ (proj2 (proj2 Hg0) v) (proj2 Hb) Hc' Hn2) as OC.
    rewrite (dabs_prepend i j) by auto. rewrite Hx, HX. reflexivity.
  - destruct (reach_fail _ _ _ _ _ _ _ (IHdiag (proj1 (proj2 Hg0)) Hi c Hc Hm)) as (n & Hn).
    exists (S n). cbn [fast]. unfold bind_fast. rewrite Hn by auto. reflexivity.
  - destruct (reach_exn _ _ _ _ _ (IHdiag (proj1 (proj2 Hg0)) Hi c Hc Hm)) as (n & Hn).
    exists (S n). cbn [fast]. unfold bind_fast. rewrite Hn by auto. reflexivity.
  - (* seq *) destruct (reach_succ _ _ _ _ _ _ _ (proj1 (proj2 Hg0)) Hi Hc
      (IHdiag1 (proj1 (proj2 Hg0)) Hi c Hc Hm)) as (n & o1 & Hn & Hv & Hj & HX & Hb & Hcon & Hc' & Hm').
    destruct (reach_any _ _ _ _ _ (IHdiag2 (proj2 (proj2 Hg0)) (proj2 Hb) (ok_ctx o1) Hc'
      ltac:(congruence))) as (n2 & x & Hn2 & Hx).
    exists (S (n + n2)). cbn [fast]. unfold seq_fast. rewrite Hn by lia. cbn [obind].
    rewrite Hv, Hj, Hn2 by lia.
    destruct x as [[o2|e2]|e2|]; cbn [obind sres_fmap ok_fmap]; try discriminate;
      [| |cbn in Hx |- *; injection Hx as <-; reflexivity].
    + pose proof (reach_okcon _ _ _ _ _ _ (proj2 (proj2 Hg0)) (proj2 Hb) Hc' Hn2) as OC.
      rewrite (dabs_prepend i j) by auto. cbn in Hx |- *; injection Hx as <-; cbn. rewrite HX. reflexivity.
    + rewrite (dabs_prepend i j) by (auto; exact I). cbn in Hx |- *; injection Hx as <-; cbn. rewrite HX.
      destruct (er_con e2); reflexivity.
  - destruct (reach_fail _ _ _ _ _ _ _ (IHdiag (proj1 (proj2 Hg0)) Hi c Hc Hm)) as (n & Hn).
    exists (S n). cbn [fast]. unfold seq_fast. rewrite Hn by auto. reflexivity.
  - destruct (reach_exn _ _ _ _ _ (IHdiag (proj1 (proj2 Hg0)) Hi c Hc Hm)) as (n & Hn).
    exists (S n). cbn [fast]. unfold seq_fast. rewrite Hn by auto. reflexivity.
  - (* maybe *) destruct (reach_succ _ _ _ _ _ _ _ (proj2 Hg0) Hi Hc (IHdiag (proj2 Hg0) Hi c Hc Hm))
      as (n & o & Hn & Hv & Hj & HX & _).
    exists (S n). cbn [fast]. unfold maybe_fast. rewrite Hn by auto. cbn. congruence.
  - destruct (reach_fail _ _ _ _ _ _ _ (IHdiag (proj2 Hg0) Hi c Hc Hm)) as (n & Hn).
    exists (S n). cbn [fast]. unfold maybe_fast. rewrite Hn by auto. reflexivity.
  - destruct (reach_fail _ _ _ _ _ _ _ (IHdiag (proj2 Hg0) Hi c Hc Hm)) as (n & Hn).
    exists (S n). cbn [fast]. unfold maybe_fast. rewrite Hn by auto. reflexivity.
  - destruct (reach_exn _ _ _ _ _ (IHdiag (proj2 Hg0) Hi c Hc Hm)) as (n & Hn).
    exists (S n). cbn [fast]. unfold maybe_fast. rewrite Hn by auto. reflexivity.
  - (* many more *) destruct (reach_succ _ _ _ _ _ _ _ (proj2 Hg0) Hi Hc (IHdiag1 (proj2 Hg0) Hi c Hc Hm))
      as (n & o1 & Hn & Hv & Hj & HX & Hb & Hcon & Hc' & Hm').
    destruct (reach_any _ _ _ _ _ (IHdiag2 Hg (proj2 Hb) (ok_ctx o1) Hc' ltac:(congruence)))
      as (n2 & x & Hn2 & Hx).
    pose (N := n + n2). exists (S (S N)). rewrite fast_many, many_fast_S, Hn by lia.
    cbn [obind]. assert (Hlt : Nat.ltb i j = true) by (apply Nat.ltb_lt; auto). rewrite Hcon, Hlt, Hj, Hv.
    rewrite many_fast_acc.
    assert (K : dabs (many_fast (fast E (S N) p) N false [] s j (ok_ctx o1)) = Some (DSucc l k Y)).
    { eapply dabs_lef; [|rewrite <- Hx, <- (Hn2 (S N)) by lia; reflexivity].
      rewrite fast_many. apply lef_many_fast; auto. intros; apply fast_lef; lia. }
    apply dabs_succ in K as (o2 & K & K1 & K2 & K3). rewrite K. cbn. congruence.
  - destruct (reach_succ _ _ _ _ _ _ _ (proj2 Hg0) Hi Hc (IHdiag1 (proj2 Hg0) Hi c Hc Hm))
      as (n & o1 & Hn & Hv & Hj & HX & Hb & Hcon & Hc' & Hm').
    destruct (reach_any _ _ _ _ _ (IHdiag2 Hg (proj2 Hb) (ok_ctx o1) Hc' ltac:(congruence)))
      as (n2 & x & Hn2 & Hx).
    pose (N := n + n2). exists (S (S N)). rewrite fast_many, many_fast_S, Hn by lia.
    cbn [obind]. assert (Hlt : Nat.ltb i j = true) by (apply Nat.ltb_lt; auto). rewrite Hcon, Hlt, Hj, Hv.
    rewrite many_fast_acc.
    assert (K : dabs (many_fast (fast E (S N) p) N false [] s j (ok_ctx o1)) = Some (DFail b l Y)).
    { eapply dabs_lef; [|rewrite <- Hx, <- (Hn2 (S N)) by lia; reflexivity].
      rewrite fast_many. apply lef_many_fast; auto. intros; apply fast_lef; lia. }
    apply dabs_fail in K as (o2 & K & K1 & K2 & K3). rewrite K. cbn. congruence.
  - destruct (reach_succ _ _ _ _ _ _ _ (proj2 Hg0) Hi Hc (IHdiag1 (proj2 Hg0) Hi c Hc Hm))
      as (n & o1 & Hn & Hv & Hj & HX & Hb & Hcon & Hc' & Hm').
    destruct (reach_any _ _ _ _ _ (IHdiag2 Hg (proj2 Hb) (ok_ctx o1) Hc' ltac:(congruence)))
      as (n2 & x & Hn2 & Hx).
    pose (N := n + n2). exists (S (S N)). rewrite fast_many, many_fast_S, Hn by lia.
    cbn [obind]. assert (Hlt : Nat.ltb i j = true) by (apply Nat.ltb_lt; auto). rewrite Hcon, Hlt, Hj, Hv.
    rewrite many_fast_acc.
    assert (K : dabs (many_fast (fast E (S N) p) N false [] s j (ok_ctx o1)) = Some (DExn e)).
    { eapply dabs_lef; [|rewrite <- Hx, <- (Hn2 (S N)) by lia; reflexivity].
      rewrite fast_many. apply lef_many_fast; auto. intros; apply fast_lef; lia. }
    apply dabs_exn in K. rewrite K. reflexivity.
  - destruct (reach_succ _ _ _ _ _ _ _ (proj2 Hg0) Hi Hc (IHdiag (proj2 Hg0) Hi c Hc Hm))
      as (n & o1 & Hn & Hv & Hj & HX & Hb & Hcon & _).
    exists (S (S n)). rewrite fast_many, many_fast_S, Hn by auto. cbn. rewrite Hcon, Nat.ltb_irrefl. reflexivity.
  - destruct (reach_fail _ _ _ _ _ _ _ (IHdiag (proj2 Hg0) Hi c Hc Hm)) as (n & Hn).
    exists (S (S n)). rewrite fast_many, many_fast_S, Hn by auto. reflexivity.
  - destruct (reach_fail _ _ _ _ _ _ _ (IHdiag (proj2 Hg0) Hi c Hc Hm)) as (n & Hn).
    exists (S (S n)). rewrite fast_many, many_fast_S, Hn by auto. reflexivity.
  - destruct (reach_exn _ _ _ _ _ (IHdiag (proj2 Hg0) Hi c Hc Hm)) as (n & Hn).
    exists (S (S n)). rewrite fast_many, many_fast_S, Hn by auto. reflexivity.
  - (* attempt *) destruct (reach_succ _ _ _ _ _ _ _ (proj2 Hg0) Hi Hc (IHdiag (proj2 Hg0) Hi c Hc Hm))
      as (n & o & Hn & Hv & Hj & HX & _).
    exists (S n). cbn [fast]. unfold attempt_fast. rewrite Hn by auto. cbn. congruence.
  - destruct (reach_fail _ _ _ _ _ _ _ (IHdiag (proj2 Hg0) Hi c Hc Hm)) as (n & Hn).
    exists (S n). cbn [fast]. unfold attempt_fast. rewrite Hn by auto. reflexivity.
  - destruct (reach_exn _ _ _ _ _ (IHdiag (proj2 Hg0) Hi c Hc Hm)) as (n & Hn).
    exists (S n). cbn [fast]. unfold attempt_fast. rewrite Hn by auto. reflexivity.
  - (* label *) destruct (reach_any _ _ _ _ _ (IHdiag (proj2 Hg0) Hi c Hc Hm)) as (n & y & Hn & Hy).
    exists (S n). cbn [fast]. unfold label_fast. rewrite Hn by auto.
    destruct y as [r|e|]; cbn [obind]; [|cbn in Hy |- *; injection Hy as <-; reflexivity|discriminate].
    rewrite (dabs_set_exp i) by (exact (reach_okcon _ _ _ _ _ _ (proj2 Hg0) Hi Hc Hn)). rewrite Hy. reflexivity.
  - destruct (IHdiag (proj2 Hg0) Hi c Hc Hm) as [n Hn]. exists (S n). exact Hn.
  - destruct (IHdiag (proj2 Hg0) Hi c Hc Hm) as [n Hn]. exists (S n). exact Hn.
  - destruct (IHdiag (proj2 Hg0) Hi c Hc Hm) as [n Hn]. exists (S n). exact Hn.
  - (* block *)
    destruct (cs_col _ _ _ _ _ CS i c (proj2 (gall_node _ _ _ Hg) I) Hc Hi) as [Hlo Hcl]. red in Hcl, Hlo.
    pose proof (cs_upd _ _ _ _ _ CS i i c Hc ltac:(unfold len in *; lia)) as Hcu.
    destruct (IHdiag (proj2 Hg0) Hi (set_mark (update_loc c s i) (col i))
      (cs_mark _ _ _ _ _ CS _ _ _ Hcu) eq_refl) as [n Hn].
    exists (S n). cbn [fast]. unfold block_fast. rewrite Hcl.
    change (loc_col (locof i)) with (col i).
    destruct (fast E n p s i _); cbn [obind]; auto. rewrite dabs_set_ctx. exact Hn.
  - (* aligned *)
    destruct (cs_col _ _ _ _ _ CS i c (proj2 (gall_node _ _ _ Hg) I) Hc Hi) as [Hlo Hcl]. red in Hcl, Hlo.
    pose proof (cs_upd _ _ _ _ _ CS i i c Hc ltac:(unfold len in *; lia)) as Hcu.
    destruct (IHdiag (proj2 Hg0) Hi (update_loc c s i) Hcu ltac:(rewrite upd_mark'; auto)) as [n Hn].
    exists (S n). cbn [fast]. unfold aligned_fast. rewrite Hcl, upd_mark'.
    rewrite Hm, H, Z.eqb_refl. exact Hn.
  - destruct (cs_col _ _ _ _ _ CS i c (proj2 (gall_node _ _ _ Hg) I) Hc Hi) as [Hlo Hcl]. red in Hcl, Hlo.
    exists 1. cbn [fast]. unfold aligned_fast. rewrite Hcl, upd_mark', Hlo.
    destruct (Z.eqb_spec (ctx_mark c) (loc_col (locof i))); [congruence|reflexivity].
  - (* indented *)
    destruct (cs_col _ _ _ _ _ CS i c (proj2 (gall_node _ _ _ Hg) I) Hc Hi) as [Hlo Hcl]. red in Hcl, Hlo.
    pose proof (cs_upd _ _ _ _ _ CS i i c Hc ltac:(unfold len in *; lia)) as Hcu.
    destruct (IHdiag (proj2 Hg0) Hi (set_mark (update_loc c s i) (col i))
      (cs_mark _ _ _ _ _ CS _ _ _ Hcu) eq_refl) as [n Hn].
    exists (S n). cbn [fast]. unfold indented_fast. rewrite Hcl, upd_mark'.
    rewrite Hm, <- H, Z.eqb_refl.
    change (loc_col (locof i)) with (col i).
    destruct (fast E n p s i _); cbn [obind]; auto. rewrite dabs_set_ctx. exact Hn.
  - destruct (cs_col _ _ _ _ _ CS i c (proj2 (gall_node _ _ _ Hg) I) Hc Hi) as [Hlo Hcl]. red in Hcl, Hlo.
    exists 1. cbn [fast]. unfold indented_fast. rewrite Hcl, upd_mark', Hlo.
    destruct (Z.eqb_spec (ctx_mark c + delta) (loc_col (locof i))); [congruence|reflexivity].
  - (* delay *) destruct (IHdiag (HE d) Hi c Hc Hm) as [n Hn]. exists (S n). exact Hn.
  - exists 1. reflexivity.
Qed.

End DiagProofs.
