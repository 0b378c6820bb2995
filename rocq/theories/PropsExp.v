(** C52, C53: what the expected values of an error mean. *)
From Verif Require Export ExpAll PropsLL PropsDiag PropsFirst PropsTotal Locations DiagProofs PropsRecovery.

(** ** C52  Every expected value is right: it names a part of the grammar any
    word of which can come next. *)
Theorem C52_expected_right :
  forall T V (E : env T V) n A (g : gram T V A) s mi get fmt locof r b errs,
  wf_env E -> wf g -> cohere get s locof -> lay_ok E g s locof ->
  everywhere E (completable_node E) g -> attempt_free E g ->
  parse E n g s false mi get fmt = Ret r -> unwrap r b = Raises errs ->
  exists p e, errs = [e] /\ ei_loc e = locof p /\ p <= List.length s /\
    forall l, In l (ei_expected e) -> rightly E g (firstn p s) l.
Proof.
  intros T V E n A g s mi get fmt locof r b errs HE Hg Hco Hl Hc Ha H Hu.
  destruct (C43_plain_diagnostics T V E A g s mi get fmt locof b HE Hg Hco Hl) as (_ & D & _).
  destruct (proj1 (D errs) (ex_intro _ n (ex_intro _ r (conj H Hu)))) as (b' & l & X & HD & ->).
  apply diag_apt in HD; auto; [|lia]. destruct HD as (p & -> & H1 & H2 & H3).
  exists p. eexists. split; [reflexivity|]. split; [reflexivity|]. split; [apply H1|].
  cbn [ei_expected]. unfold slice in H3. rewrite Nat.sub_0_r in H3. exact H3.
Qed.
Print Assumptions C52_expected_right.

(** the same holds of the first error reported with recovery *)
Theorem C52_expected_right_recovering :
  forall T V (E : env T V) n A (g : gram T V A) s mi get fmt locof r errs,
  wf_env E -> wf g -> cohere get s locof -> lay_ok E g s locof ->
  everywhere E (completable_node E) g -> attempt_free E g -> single_withs E g ->
  parse E n g s true mi get fmt = Ret r -> unwrap r false = Raises errs ->
  exists p e tl, errs = e :: tl /\ ei_loc e = locof p /\ p <= List.length s /\
    (ei_op e <> None -> forall l, In l (ei_expected e) -> rightly E g (firstn p s) l).
Proof.
  intros T V E n A g s mi get fmt locof r errs HE Hg Hco Hl Hc Ha Hs H Hu.
  destruct (plain_fails _ _ _ _ _ _ _ mi _ _ _ _ _ H Hu) as (r0 & e0 & H0 & Hu0).
  destruct (C52_expected_right _ _ _ _ _ _ _ _ _ _ _ _ _ _ HE Hg Hco Hl Hc Ha H0 Hu0) as (p & e & -> & K1 & K2 & K3).
  destruct (C12_first_error _ _ _ _ _ _ _ _ _ _ _ _ _ _ _ _ HE Hg Hco Hl Ha Hs H0 Hu0 H)
    as (x0 & x1 & tl & Hx & Hx1 & L1 & _ & L3).
  injection Hx as <-. rewrite Hu in Hx1. injection Hx1 as ->.
  exists p, x1, tl. split; [auto|]. split; [congruence|]. split; [auto|]. intros Ho. rewrite (L3 Ho). exact K3.
Qed.
Print Assumptions C52_expected_right_recovering.

Lemma diag_seq_inv T V (E : env T V) s at_ C (G : gram T V C) m i o : diag E s at_ C G m i o ->
  match G in gram _ _ C return dres C -> Prop with
  | GSeq p q merge => fun o =>
      (exists v j X o', diag E s at_ _ p m i (DSucc v j X) /\ diag E s at_ _ q m j o' /\
         o = on_dvalue (merge v) (d_after i j X o')) \/
      (exists b l X, diag E s at_ _ p m i (DFail b l X) /\ o = DFail b l X) \/ (exists e, o = DExn e)
  | GEof => fun o => o = DFail false (at_ i) ["end of file"%string] \/ exists X, o = DSucc tt i X
  | _ => fun _ => True
  end o.
Proof. intros H. destruct H; try exact I; eauto 10. Qed.
(** a part called so *)
Definition uses_name {T V} (E : env T V) {A} (g : gram T V A) (l : string) : Prop :=
  exists B (q : gram T V B), occurs E q A g /\ called B q l.

(** "end of file" is expected only where the input could end *)
Theorem C52_end_of_file :
  forall T V (E : env T V) n A (g : gram T V A) s mi get fmt locof r b errs,
  wf_env E -> wf g -> cohere get s locof -> lay_ok E g s locof ->
  everywhere E (completable_node E) g -> attempt_free E g -> ~ uses_name E g "end of file" ->
  parse E n (seql g GEof) s false mi get fmt = Ret r -> unwrap r b = Raises errs ->
  exists p e, errs = [e] /\ ei_loc e = locof p /\ p <= List.length s /\
    (In "end of file"%string (ei_expected e) -> exists v, sentence E g (firstn p s) v).
Proof.
  intros T V E n A g s mi get fmt locof r b errs HE Hg Hco Hl Hc Ha Hn H Hu.
  destruct (C43_plain_diagnostics T V E A (seql g GEof) s mi get fmt locof b HE (wf_eof _ _ Hg) Hco
    (lay_eof _ _ _ _ _ Hl)) as (_ & D & _).
  destruct (proj1 (D errs) (ex_intro _ n (ex_intro _ r (conj H Hu)))) as (b' & l & X & HD & ->).
  apply diag_seq_inv in HD. destruct HD as [(v & j & Y & o & D1 & D2 & D3)|[(b0 & l0 & Y & D1 & D2)|[e D2]]]; [| |discriminate].
  - pose proof (diag_valid E HE _ _ _ _ _ _ _ D1 Hg ltac:(lia) Hc) as (V1 & V2 & _).
    apply diag_seq_inv in D2. destruct D2 as [-> |[Z ->]]; [|discriminate]. simpl in D3. injection D3 as _ -> ->.
    exists j. eexists. split; [reflexivity|]. split; [reflexivity|]. split; [apply V1|].
    intros _. exists v. unfold slice in V2. rewrite Nat.sub_0_r in V2. exact V2.
  - injection D2 as -> -> ->. apply diag_apt in D1; auto; [|lia]. destruct D1 as (p & -> & K1 & _ & K2).
    exists p. eexists. split; [reflexivity|]. split; [reflexivity|]. split; [apply K1|].
    intros Hin. exfalso. apply K2 in Hin as (B & q & Ho & Hq & _). apply Hn. exists B, q. auto.
Qed.
Print Assumptions C52_end_of_file.

(** ** C53  With one token of lookahead the expected values are complete:
    whatever could come next is mentioned. *)
Theorem C53_expected_complete :
  forall T V (E : env T V) n A (g : gram T V A) s mi get fmt locof r b errs,
  wf_env E -> wf g -> cohere get s locof -> lay_ok E g s locof ->
  everywhere E (completable_node E) g -> LL1 E g ->
  everywhere E one_token_node g -> everywhere E (fun B q => ~ is_layout B q) g ->
  everywhere E (labelled_node E) g -> ~ anonymous A g -> everywhere E (clear_end_node E) g ->
  parse E n (seql g GEof) s false mi get fmt = Ret r -> unwrap r b = Raises errs ->
  exists p e, errs = [e] /\ ei_loc e = locof p /\ p <= List.length s /\
    (forall t, viable E g (firstn p s ++ [t]) -> mentions E g (ei_expected e) t) /\
    (everywhere E (fun B q => ~ is_eof B q) g -> forall v, sentence E g (firstn p s) v ->
       In "end of file"%string (ei_expected e)).
Proof.
  intros T V E n A g s mi get fmt locof r b errs HE Hg Hco Hl Hc (F & HL & HF) H1 Hnl Hlab Han Hce H Hu.
  destruct (C43_plain_diagnostics T V E A (seql g GEof) s mi get fmt locof b HE (wf_eof _ _ Hg) Hco
    (lay_eof _ _ _ _ _ Hl)) as (_ & D & _).
  destruct (proj1 (D errs) (ex_intro _ n (ex_intro _ r (conj H Hu)))) as (b' & l & X & HD & ->). clear D.
  assert (Ng : everywhere E (nice_node E) g).
  { intros B q Ho. repeat split; [apply Hc|apply H1|apply Hnl|apply Hlab|apply Hce]; auto. }
  assert (Ns : everywhere E (nice_node E) (seql g GEof)).
  { apply ev_eof; auto.
    - split; [exists [], tt; constructor|]. split; [exact I|]. split; [intros []|]. split; [split; auto|exact I].
    - split; [exact I|]. split; [exact I|]. split; [intros []|]. split; exact I. }
  apply diag_valid in HD; auto; [|apply wf_eof; auto|lia|apply completable_eof; auto].
  destruct HD as (p & -> & K1 & _ & _ & K4).
  destruct K4 as [_ K4]; [apply nice_local; auto|].
  specialize (K4 s default_locof (fun k _ => eq_refl)).
  assert (Inj : forall a b, default_locof a = default_locof b -> a = b).
  { intros a c Hab. injection Hab as Hab. lia. }
  exists p. eexists. split; [reflexivity|]. split; [reflexivity|]. split; [apply K1|]. cbn [ei_expected].
  assert (Sl : slice s 0 p = firstn p s) by (unfold slice; rewrite Nat.sub_0_r; reflexivity).
  split.
  - intros t Ht.
    destruct (diag_thorough E HE F HF _ _ _ _ _ _ _ Inj K4 (wf_eof _ _ Hg) ltac:(lia) Ns (fun o => o = None)
      (ll1_eof _ _ _ _ HL) (ex_intro _ None eq_refl)) as (p' & Ep & _ & _ & _ & M & _).
    apply Inj in Ep. subst p'. rewrite Sl in M.
    destruct (M (or_intror (fun x => x)) t) as (l & B & q & Q1 & Q2 & Q3 & Q4).
    { apply viable_eof. exact Ht. }
    revert Q3 Q4. revert B q Q2. apply (ev_eof E (fun B q => called B q l -> first E q t -> mentions E g X t)).
    + intros [].
    + intros _ (w & v & Hw). apply sent_inv in Hw. discriminate.
    + intros B q Ho Hq Hf. exists l, B, q. auto.
  - intros He v Hv.
    apply diag_seq_inv in K4. destruct K4 as [(v0 & j & Y & o & D1 & D2 & D3)|[(b0 & l0 & Y & D1 & D2)|[e D2]]]; [| |discriminate].
    + apply diag_seq_inv in D2. destruct D2 as [-> |[Z ->]]; [|discriminate]. simpl in D3. injection D3 as _ _ ->.
      apply in_app_iff. right. left. reflexivity.
    + injection D2 as <- <- <-. exfalso.
      destruct (diag_thorough E HE F HF _ _ _ _ _ _ _ Inj D1 Hg ltac:(lia) Ng (fun o => o = None)
        HL (ex_intro _ None eq_refl)) as (p' & Ep & _ & _ & _ & _ & N).
      apply Inj in Ep. subst p'. rewrite Sl in N. exact (N (or_intror He) v Hv).
Qed.
Print Assumptions C53_expected_complete.

(** the same with recovery *)
Theorem C53_expected_complete_recovering :
  forall T V (E : env T V) n A (g : gram T V A) s mi get fmt locof r errs,
  wf_env E -> wf g -> cohere get s locof -> lay_ok E g s locof ->
  everywhere E (completable_node E) g -> LL1 E g ->
  everywhere E one_token_node g -> everywhere E (fun B q => ~ is_layout B q) g ->
  everywhere E (labelled_node E) g -> ~ anonymous A g -> everywhere E (clear_end_node E) g ->
  single_withs E g ->
  parse E n (seql g GEof) s true mi get fmt = Ret r -> unwrap r false = Raises errs ->
  exists p e tl, errs = e :: tl /\ ei_loc e = locof p /\ p <= List.length s /\
    (ei_op e <> None ->
       (forall t, viable E g (firstn p s ++ [t]) -> mentions E g (ei_expected e) t) /\
       (everywhere E (fun B q => ~ is_eof B q) g -> forall v, sentence E g (firstn p s) v ->
          In "end of file"%string (ei_expected e))).
Proof.
  intros T V E n A g s mi get fmt locof r errs HE Hg Hco Hl Hc HL H1 Hnl Hlab Han Hce Hsw H Hu.
  destruct (plain_fails _ _ _ _ _ _ _ mi _ _ _ _ _ H Hu) as (r0 & e0 & H0 & Hu0).
  destruct (C53_expected_complete _ _ _ _ _ _ _ _ _ _ _ _ _ _ HE Hg Hco Hl Hc HL H1 Hnl Hlab Han Hce H0 Hu0)
    as (p & e & -> & K1 & K2 & K3).
  assert (Ha : attempt_free E (seql g GEof)).
  { apply ev_eof; simpl; try tauto. intros B q Ho Hq. specialize (H1 B q Ho). destruct q; simpl in *; tauto. }
  assert (Hsw' : single_withs E (seql g GEof)) by (apply ev_eof; simpl; auto).
  destruct (C12_first_error _ _ _ _ _ _ _ _ _ _ _ _ _ _ _ _ HE (wf_eof _ _ Hg) Hco (lay_eof _ _ _ _ _ Hl) Ha Hsw' H0 Hu0 H)
    as (x0 & x1 & tl & Hx & Hx1 & L1 & _ & L3).
  injection Hx as <-. rewrite Hu in Hx1. injection Hx1 as ->.
  exists p, x1, tl. split; [auto|]. split; [congruence|]. split; [auto|]. intros Ho. rewrite (L3 Ho). exact K3.
Qed.
Print Assumptions C53_expected_complete_recovering.

(** *** A parser that is LL(1) whatever follows is prefix-free *)
Lemma ll1_prefix_free T V (E : env T V) A (p : gram T V A) F :
  wf_env E -> wf p -> everywhere E (completable_node E) p -> everywhere E (quiet_node E) p -> guarded E p ->
  (forall d, ll1 E F (E d) (F d)) -> ll1 E F p (fun _ => True) -> prefix_free E p.
Proof.
  intros HE Hp Hc Hq Hg HF HL w v t w' v' S1 S2.
  set (s := w ++ t :: w') in *.
  destruct (C39_total T V E A p s false 0 default_get_loc default_fmt_loc HE Hp Hq Hg ltac:(lia)) as (n & r & H).
  destruct (C43_plain_diagnostics T V E A p s 0 default_get_loc default_fmt_loc default_locof false HE Hp
    (default_cohere s) (or_introl (default_exact s))) as (D1 & D2 & _).
  assert (D : exists o, diag E s default_locof A p 0 0 o /\ forall e, o <> DExn e).
  { destruct (unwrap r false) as [x|errs] eqn:Hu.
    - destruct (proj1 (D1 x)) as (j & X & D); [eauto|]. eexists. split; [exact D|discriminate].
    - destruct (proj1 (D2 errs)) as (b & l & X & D & _); [eauto|]. eexists. split; [exact D|discriminate]. }
  destruct D as (o & D & No).
  destruct (ll1_reads E HE F HF _ _ _ _ _ _ _ D Hp ltac:(lia) Hc (fun _ => True) w (t :: w') v HL eq_refl I S1) as [[X HX]|[e HX]];
    [|exact (No _ HX)].
  destruct (ll1_reads E HE F HF _ _ _ _ _ _ _ D Hp ltac:(lia) Hc (fun _ => True) s [] v' HL (eq_sym (app_nil_r s)) I S2) as [[Y HY]|[e HY]];
    [|exact (No _ HY)].
  rewrite HX in HY. injection HY as _ HY _. unfold s in HY. rewrite app_length in HY. simpl in HY. lia.
Qed.

(** ** The expression grammar *)
Lemma ex_item_occurs : occurs ex_E (seq ex_plus ex_value) _ (GDelay 0).
Proof. apply oc_delay. apply oc_fmap, oc_seq_r, oc_many, oc_refl. Qed.
Lemma occurs_trans T V (E : env T V) C (x : gram T V C) B (q : gram T V B) A (g : gram T V A) :
  occurs E q A g -> occurs E x B q -> occurs E x A g.
Proof. intros H. induction H; intros Hx; auto; try (econstructor; eauto; fail). Qed.
Lemma ex_item_prefix_free : prefix_free ex_E (seq ex_plus ex_value).
Proof.
  eapply ll1_prefix_free with (F := ex_follow).
  - apply ex_wf_E.
  - solve_gall.
  - intros B q Ho. apply ex_completable. eapply occurs_trans; [apply ex_item_occurs|exact Ho].
  - intros B q Ho. apply ex_quiet0. eapply occurs_trans; [apply ex_item_occurs|exact Ho].
  - intros d Ho. apply ex_guarded0. eapply occurs_trans; [apply ex_item_occurs|exact Ho].
  - intros d. split; [apply ex_value_ll1|]. split; [split; [split; exact I|apply ex_value_ll1]|]. split.
    + intros [v H]. apply ex_item_sent in H as [w H]. discriminate.
    + intros o Ho HF. destruct o as [t|]; [|destruct Ho]. destruct Ho as (w & v & Ho).
      apply ex_item_sent in Ho as (w' & Ho). injection Ho as -> ->. destruct HF; discriminate.
  - split; [split; exact I|apply ex_value_ll1].
Qed.
Lemma ex_clear_end : everywhere ex_E (clear_end_node ex_E) (GDelay 0).
Proof.
  apply everywhere_gall; [intros d|]; solve_gall; apply ex_item_prefix_free.
Qed.
Lemma ex_labelled : everywhere ex_E (labelled_node ex_E) (GDelay 0).
Proof. apply everywhere_gall; [intros d|]; solve_gall. Qed.

(** What an error of the expression grammar says is exactly what could come
    next, wherever it is. *)
Theorem C53_case : forall s n r errs,
  scannerless_parse ex_E n ex_top s false = Ret r -> unwrap r false = Raises errs ->
  exists p e, errs = [e] /\ loc_pos (ei_loc e) = Z.of_nat p /\ p <= List.length s /\
    (forall l, In l (ei_expected e) -> rightly ex_E ex_top (firstn p s) l) /\
    (forall t, viable ex_E (GDelay 0) (firstn p s ++ [t]) -> mentions ex_E (GDelay 0) (ei_expected e) t) /\
    (forall v, sentence ex_E (GDelay 0) (firstn p s) v -> In "end of file"%string (ei_expected e)).
Proof.
  intros s n r errs H Hu.
  destruct (C53_expected_complete char ex_V ex_E n Z (GDelay 0) s 5 scannerless_get_loc linecol_fmt (true_loc s) r false errs
    ex_wf_E (conj I I) (scannerless_cohere s) (or_introl (scannerless_exact s)) ex_completable ex_LL1
    ex_one_token1 ex_layout_free ex_labelled (fun x => x) ex_clear_end H Hu) as (p & e & -> & K1 & K2 & K3 & K4).
  destruct (C52_expected_right char ex_V ex_E n Z ex_top s 5 scannerless_get_loc linecol_fmt (true_loc s) r false [e]
    ex_wf_E ex_wf (scannerless_cohere s) (or_introl (scannerless_exact s)) (completable_eof _ _ _ ex_completable)
    ex_attempt_free H Hu) as (p' & e' & He & J1 & J2 & J3).
  injection He as <-.
  assert (p' = p) as ->.
  { rewrite K1 in J1. apply (f_equal loc_pos) in J1. rewrite !(proj2 (scannerless_exact s)) in J1 by auto. lia. }
  exists p, e. split; [auto|]. split; [rewrite K1; apply (scannerless_exact s); auto|]. split; [auto|]. split; [auto|].
  split; [auto|]. apply K4. apply everywhere_gall; [intros d|]; solve_gall.
Qed.
Print Assumptions C53_case.
(** "1+(2": the closing bracket, or a further term, is missing *)
Example C53_instance : exists r e, ex_parse "1+(2" false 5 = Ret r /\ unwrap r false = Raises [e] /\
  ei_expected e = ["'+'"; "')'"]%string /\ loc_pos (ei_loc e) = 4%Z.
Proof. do 2 eexists. repeat (split; [vm_compute; reflexivity|]). vm_compute. reflexivity. Qed.

(** *** The conditions are needed *)
(** With [attempt], values expected at another place are listed:
    attempt('a' 'b') | 'c' on "ad" expects 'c' after "a". *)
Definition exp_att : ex_gram char := GAlt (GAttempt (seqr (ex_sym "a") (ex_sym "b"))) (ex_sym "c").
Theorem C52_attempt_differs :
  ~ rightly lay_E exp_att (ex_str "a") "'c'" /\
  exists r e, scannerless_parse lay_E 9 exp_att (ex_str "ad") false = Ret r /\ unwrap r false = Raises [e] /\
    loc_pos (ei_loc e) = 1%Z /\ In "'c'"%string (ei_expected e).
Proof.
  split.
  - intros (B & q & Ho & Hq & Hv).
    assert (K : everywhere lay_E (fun B q => called B q "'c'" -> exists v, sentence lay_E q (ex_str "c") v) exp_att).
    { apply everywhere_gall; [intros d|]; solve_gall; intros H; try discriminate.
      exists (ex_ch "c"). constructor. reflexivity. }
    destruct (K B q Ho Hq) as [v Hs]. destruct (Hv _ _ Hs) as (w' & v' & Hw).
    apply sent_inv in Hw as [Hw|Hw].
    + apply sent_inv in Hw. apply sent_inv in Hw as (w1 & w2 & v1 & v2 & E0 & _ & S1 & S2).
      apply sent_inv in S1 as [-> S1], S2 as [-> S2]. simpl in E0. injection E0 as _ E0 _. subst v2. discriminate.
    + apply sent_inv in Hw as [Hw _]. discriminate.
  - do 2 eexists. split; [vm_compute; reflexivity|]. split; [vm_compute; reflexivity|]. split; [reflexivity|].
    vm_compute. auto.
Qed.
(** After an item of [many] that could go on, what the item could still read is
    forgotten: many('a' 'b'?) on "ad" does not mention 'b'. *)
Definition exp_many : ex_gram (list (char * option char)) := GMany (seq (ex_sym "a") (GMaybe (ex_sym "b"))).
Theorem C53_many_forgets :
  viable lay_E exp_many (ex_str "ab") /\ LL1 lay_E exp_many /\
  exists r e, scannerless_parse lay_E 20 (seql exp_many GEof) (ex_str "ad") false = Ret r /\ unwrap r false = Raises [e] /\
    loc_pos (ei_loc e) = 1%Z /\ ei_expected e = ["'a'"; "end of file"]%string.
Proof.
  split; [|split].
  - exists [], [(ex_ch "a", Some (ex_ch "b"))].
    apply (se_many lay_E _ (seq (ex_sym "a") (GMaybe (ex_sym "b"))) (ex_str "ab") []); [|constructor].
    apply (se_seq lay_E _ _ _ (ex_sym "a") (GMaybe (ex_sym "b")) _ (ex_str "a") (ex_str "b")); [constructor; reflexivity|].
    constructor. constructor. reflexivity.
  - exists (fun _ _ => False). split; [|intros d; exact I].
    assert (FA : forall t, first lay_E (seq (ex_sym "a") (GMaybe (ex_sym "b"))) t -> t = ex_ch "a").
    { intros t (w & v & H). apply sent_inv in H as (w1 & w2 & v1 & v2 & E0 & _ & S1 & _).
      apply sent_inv in S1 as [-> S1]. injection E0 as -> _. apply N.eqb_eq in S1. exact S1. }
    split; [|split].
    + split; [exact I|]. split; [exact I|]. split.
      * intros [v H]. apply sent_inv in H as [H _]. discriminate.
      * intros o H1 [H2|H2]; [|subst o; exact H1]. destruct o as [t|]; [|exact H1].
        destruct H1 as (w & v & H1). apply sent_inv in H1 as [H1 H3]. injection H1 as -> _.
        apply FA in H2. subst v. discriminate.
    + intros [v H]. apply sent_inv in H as (w1 & w2 & v1 & v2 & E0 & _ & S1 & _).
      apply sent_inv in S1 as [-> S1]. discriminate.
    + intros o H1 ->. exact H1.
  - do 2 eexists. repeat (split; [vm_compute; reflexivity|]). vm_compute. reflexivity.
Qed.
