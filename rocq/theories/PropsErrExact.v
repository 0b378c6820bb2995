(** What an error says is exactly what could stand at its place (C49, C52, C53 and C84 put
    together), if a name does not stand for different things in different places. *)
From Verif Require Import ReplaySpec Shut PropsReplay PropsShut PropsExp PropsLL LL LangInv DiagProofs PropsDiag Locations PropsErrJson Readme Locations.

(** parts of the same name start with the same tokens *)
Definition same_first {T V} (E : env T V) {A} (g : gram T V A) : Prop :=
  forall l B (q : gram T V B) C (q' : gram T V C) t, occurs E q A g -> occurs E q' A g ->
  called B q l -> called C q' l -> first E q t -> first E q' t.

(** the names [X] stand for exactly the tokens that can come after [w], the end of the
    text is named iff [w] is complete, and nothing else is named *)
Definition says_exactly {T V} (E : env T V) {A} (g : gram T V A) (w : list T) (X : list string) : Prop :=
  (forall t, mentions E g X t <-> viable E g (w ++ [t])) /\
  (In "end of file"%string X <-> exists v, sentence E g w v) /\
  (forall l, In l X -> l = "end of file"%string \/ uses_name E g l).

Section Exact.
Context {T : Type} {V : nat -> Type}.
Variable E : env T V.
Context {A : Type}.
Variable g : gram T V A.
Hypothesis HE : wf_env E.
Hypothesis Hg : wf g.
Hypothesis Hc : everywhere E (completable_node E) g.
Hypothesis Hs : exists w v, sentence E g w v.
Hypothesis HL : LL1 E g.
Hypothesis H1 : everywhere E one_token_node g.
Hypothesis Hnl : everywhere E (fun B q => ~ is_layout B q) g.
Hypothesis Hlab : everywhere E (labelled_node E) g.
Hypothesis Han : ~ anonymous A g.
Hypothesis Hce : everywhere E (clear_end_node E) g.
Hypothesis Hsf : same_first E g.
Hypothesis Hun : ~ uses_name E g "end of file".
Hypothesis Heof : everywhere E (fun B q => ~ is_eof B q) g.

Lemma exact_default s n mi r b errs :
  parse E n (seql g GEof) s false mi default_get_loc default_fmt_loc = Ret r -> unwrap r b = Raises errs ->
  exists p e, errs = [e] /\ ei_loc e = default_locof p /\ p <= List.length s /\
    viable E g (firstn p s) /\
    (p < List.length s -> ~ viable E g (firstn (p + 1) s)) /\
    (p = List.length s -> forall v, ~ sentence E g s v) /\
    says_exactly E g (firstn p s) (ei_expected e).
Proof using HE Hg Hc Hs HL H1 Hnl Hlab Han Hce Hsf Hun Heof.
  intros H Hu.
  assert (Hl : lay_ok E g s default_locof) by (left; apply default_exact).
  destruct (C53_expected_complete _ _ E n _ g s mi _ _ default_locof r b errs HE Hg
    (default_cohere s) Hl Hc HL H1 Hnl Hlab Han Hce H Hu) as (p & e & K1 & K2 & K3 & K4 & K5).
  assert (Lp : forall p1 p2, default_locof p1 = default_locof p2 -> p1 = p2).
  { intros p1 p2 Q. unfold default_locof in Q. injection Q. lia. }
  destruct (C49_exact_position _ _ E n _ g s mi _ _ default_locof r b errs HE Hg (default_cohere s) Hl Hc
    Hs HL (one_next _ _ _ _ _ H1) Hnl H Hu)
    as (p1 & e1 & M1 & M2 & M3 & M4 & M5 & M6).
  rewrite K1 in M1. injection M1 as <-. assert (p1 = p) as -> by (apply Lp; congruence).
  assert (Ha0 : attempt_free E g).
  { intros B q Ho Hq. specialize (H1 B q Ho). destruct q; simpl in *; tauto. }
  assert (Ha : attempt_free E (seql g GEof)).
  { apply ev_eof; simpl; try tauto. }
  destruct (C52_expected_right _ _ E n _ (seql g GEof) s mi _ _ default_locof r b errs HE (wf_eof _ _ Hg) (default_cohere s) (lay_eof _ _ _ _ _ Hl)
    (completable_eof _ _ _ Hc) Ha H Hu) as (p2 & e2 & O1 & O2 & O3 & O4).
  rewrite K1 in O1. injection O1 as <-. assert (p2 = p) as -> by (apply Lp; congruence).
  destruct (C52_end_of_file _ _ E n _ g s mi _ _ default_locof r b errs HE Hg (default_cohere s) Hl Hc
    Ha0 Hun H Hu) as (p3 & e3 & R1 & R2 & R3 & R4).
  rewrite K1 in R1. injection R1 as <-. assert (p3 = p) as -> by (apply Lp; congruence).
  exists p, e. split; [exact K1|]. split; [exact K2|]. split; [exact K3|]. split; [exact M4|]. split; [exact M5|]. split; [exact M6|].
  split; [|split].
  - intros t. split; [|apply K4]. intros (l & C & q & Hl0 & Ho & Hq & Hf).
    destruct (O4 l Hl0) as (B & q' & P1 & P2 & P3).
    assert (Q : everywhere E (fun B q' => called B q' l -> first E q' t) (seql g GEof)).
    { apply (ev_eof E (fun B q' => called B q' l -> first E q' t)); [intros []| |].
      - intros Q. cbn in Q. subst l. exfalso. apply Hun. exists C, q. auto.
      - intros D q2 Ho2 Hq2. exact (Hsf l C q D q2 t Ho Ho2 Hq Hq2 Hf). }
    destruct (Q B q' P1 P2) as (w & u & Hw). specialize (P3 _ _ Hw). apply (proj1 (viable_eof _ _ _ _)) in P3.
    destruct P3 as (w' & v & Hv). exists (w ++ w'), v. rewrite <- !app_assoc in *. exact Hv.
  - split; [exact R4|]. intros (v & Hv). exact (K5 Heof v Hv).
  - intros l Hl0. destruct (O4 l Hl0) as (B & q & P1 & P2 & _).
    assert (Q : everywhere E (fun B q => called B q l -> l = "end of file"%string \/ uses_name E g l) (seql g GEof)).
    { apply (ev_eof E (fun B q => called B q l -> l = "end of file"%string \/ uses_name E g l)); [intros []|left; auto|].
      intros D q2 Ho2 Hq2. right. exists D, q2. auto. }
    exact (Q B q P1 P2).
Qed.

(** any way of computing locations *)
Lemma exact_error s n mi get fmt locof r b errs :
  cohere get s locof -> lay_ok E g s locof ->
  parse E n (seql g GEof) s false mi get fmt = Ret r -> unwrap r b = Raises errs ->
  exists p e, errs = [e] /\ ei_loc e = locof p /\ p <= List.length s /\
    viable E g (firstn p s) /\
    (p < List.length s -> ~ viable E g (firstn (p + 1) s)) /\
    (p = List.length s -> forall v, ~ sentence E g s v) /\
    says_exactly E g (firstn p s) (ei_expected e).
Proof using HE Hg Hc Hs HL H1 Hnl Hlab Han Hce Hsf Hun Heof.
  intros Hco Hl H Hu.
  destruct (default_error _ _ E n _ (seql g GEof) s mi get fmt locof r b errs HE (wf_eof _ _ Hg)
    Hco (lay_eof _ _ _ _ _ Hl) (completable_eof _ _ _ Hc))
    as (p & e & e0 & n0 & r0 & K1 & K2 & K3 & K4 & K5 & K6 & K7); auto.
  { apply ev_eof; [exact I|exact I|exact (one_next _ _ _ _ _ H1)]. }
  { apply ev_eof; [intros []|intros []|exact Hnl]. }
  destruct (exact_default s n0 mi r0 b [e0] K4 K5) as (p' & e1 & M1 & M2 & M3 & M4).
  injection M1 as <-. rewrite K6 in M2. unfold default_locof in M2. assert (p' = p) as -> by (injection M2; lia).
  exists p, e. rewrite <- K7. auto 10.
Qed.

(** the errors of one text after the other *)
Lemma exact_each put s locof v es : forall errs w j,
  one_by_one E g put eq s locof v j w es errs ->
  each_error put (fun w e => says_exactly E g w (ei_expected e)) w es errs.
Proof using HE Hg Hc Hs HL H1 Hnl Hlab Han Hce Hsf Hun Heof.
  assert (HQ : forall w rest e, complains E g (w ++ rest) (List.length w) (fun X => X = ei_expected e) -> says_exactly E g w (ei_expected e)).
  { intros w rest e HC.
    destruct (HC false 0%Z default_get_loc default_fmt_loc default_locof (default_cohere _)) as (n0 & r0 & e0 & P1 & P2 & P3 & P4 & P5).
    destruct (exact_default _ _ _ _ _ _ P1 P2) as (p & e1 & Q1 & Q2 & Q3 & _ & _ & _ & Q).
    injection Q1 as <-. rewrite P4 in Q2. unfold default_locof in Q2. assert (p = List.length w) as -> by (injection Q2; lia).
    rewrite firstn_app, Nat.sub_diag, firstn_all, app_nil_r in Q. rewrite <- P5. exact Q. }
  induction es as [|[t|ts|lb x] es IH]; intros errs w j K; cbn [one_by_one each_error] in *.
  - apply K.
  - destruct K as [_ K]. eapply IH. exact K.
  - destruct K as (e & errs' & K1 & _ & _ & K4 & _ & K6). exists e, errs'. split; [exact K1|]. split; [eapply HQ; exact K4|eapply IH; exact K6].
  - destruct K as (u & e & errs' & K0 & K1 & _ & _ & K4 & K5). exists u, e, errs'.
    do 2 (split; [assumption|]). split; [eapply HQ; exact K4|eapply IH; exact K5].
Qed.
End Exact.

Theorem C53_exactly :
  forall T V (E : env T V) n A (g : gram T V A) s mi get fmt locof r b errs,
  wf_env E -> wf g -> cohere get s locof -> lay_ok E g s locof ->
  everywhere E (completable_node E) g -> (exists w v, sentence E g w v) -> LL1 E g ->
  everywhere E one_token_node g -> everywhere E (fun B q => ~ is_layout B q) g ->
  everywhere E (labelled_node E) g -> ~ anonymous A g -> everywhere E (clear_end_node E) g ->
  everywhere E (fun B q => ~ is_eof B q) g -> ~ uses_name E g "end of file" -> same_first E g ->
  parse E n (seql g GEof) s false mi get fmt = Ret r -> unwrap r b = Raises errs ->
  exists p e, errs = [e] /\ ei_loc e = locof p /\ p <= List.length s /\
    viable E g (firstn p s) /\
    (p < List.length s -> ~ viable E g (firstn (p + 1) s)) /\
    (p = List.length s -> forall v, ~ sentence E g s v) /\
    says_exactly E g (firstn p s) (ei_expected e).
Proof. intros. eapply exact_error; eauto. Qed.
Print Assumptions C53_exactly.

(** with recovery: the first error *)
Theorem C53_exactly_recovering :
  forall T V (E : env T V) n A (g : gram T V A) s mi get fmt locof r errs,
  wf_env E -> wf g -> cohere get s locof -> lay_ok E g s locof ->
  everywhere E (completable_node E) g -> (exists w v, sentence E g w v) -> LL1 E g ->
  everywhere E one_token_node g -> everywhere E (fun B q => ~ is_layout B q) g ->
  everywhere E (labelled_node E) g -> ~ anonymous A g -> everywhere E (clear_end_node E) g ->
  everywhere E (fun B q => ~ is_eof B q) g -> ~ uses_name E g "end of file" -> same_first E g ->
  single_withs E g ->
  parse E n (seql g GEof) s true mi get fmt = Ret r -> unwrap r false = Raises errs ->
  exists p e tl, errs = e :: tl /\ ei_loc e = locof p /\ p <= List.length s /\
    viable E g (firstn p s) /\
    (p < List.length s -> ~ viable E g (firstn (p + 1) s)) /\
    (p = List.length s -> forall v, ~ sentence E g s v) /\
    (ei_op e <> None -> says_exactly E g (firstn p s) (ei_expected e)).
Proof.
  intros T V E n A g s mi get fmt locof r errs HE Hg Hco Hl Hc Hs HL H1 Hnl Hlab Han Hce He Hun Hsf Hsw H Hu.
  destruct (plain_fails _ _ _ _ _ _ _ mi _ _ _ _ _ H Hu) as (r0 & e0 & H0 & Hu0).
  destruct (C53_exactly _ _ _ _ _ _ _ _ _ _ _ _ _ _ HE Hg Hco Hl Hc Hs HL H1 Hnl Hlab Han Hce He Hun Hsf H0 Hu0)
    as (p & e & -> & K1 & K2 & K3 & K4 & K5 & K6).
  assert (Ha : attempt_free E (seql g GEof)).
  { apply ev_eof; simpl; try tauto. intros B q Ho Hq. specialize (H1 B q Ho). destruct q; simpl in *; tauto. }
  assert (Hsw' : single_withs E (seql g GEof)) by (apply ev_eof; simpl; auto).
  destruct (C12_first_error _ _ _ _ _ _ _ _ _ _ _ _ _ _ _ _ HE (wf_eof _ _ Hg) Hco (lay_eof _ _ _ _ _ Hl) Ha Hsw' H0 Hu0 H)
    as (x0 & x1 & tl & Hx & Hx1 & L1 & _ & L3).
  injection Hx as <-. rewrite Hu in Hx1. injection Hx1 as ->.
  exists p, x1, tl. split; [auto|]. split; [congruence|]. do 4 (split; [assumption|]).
  intros Ho. rewrite (L3 Ho). exact K6.
Qed.
Print Assumptions C53_exactly_recovering.

(** with recovery: all the errors, one after the other *)
Theorem C84_says_exactly :
  forall T V (E : env T V) n A (g : gram T V A) s mi get fmt locof r errs v fill Sh,
  wf_env E -> wf g -> no_layout g -> (forall d, no_layout (E d)) -> cohere get s locof ->
  everywhere E (completable_node E) g -> (exists w v, sentence E g w v) -> LL1 E g ->
  everywhere E (quiet_node E) g -> guarded E g ->
  attempt_free E g -> single_withs E g -> everywhere E (placeholder_node E fill) g ->
  everywhere E eof_free_node g -> everywhere E forward_node g ->
  everywhere E one_token_node g -> everywhere E (labelled_node E) g -> ~ anonymous A g -> everywhere E no_bind_node g ->
  everywhere E (shut_items E Sh) g -> (forall d, Sh d -> shut E Sh (E d)) ->
  ~ uses_name E g "end of file" -> same_first E g ->
  parse E n (seql g GEof) s true mi get fmt = Ret r ->
  unwrap r false = Raises errs -> unwrap r true = Returns v ->
  exists es, edits_in es = s /\
    one_by_one E g (filling E g fill) eq s locof v 0 [] es errs /\
    each_error (filling E g fill) (fun w e => says_exactly E g w (ei_expected e)) [] es errs.
Proof.
  intros T V E n A g s mi get fmt locof r errs v fill Sh HE Hg Hn HN Hco Hc Hs HL Hq Hgd Ha Hsw Hp He Hf H1 Hlab Han Hb Hsh HS Hun Hsf H Hu Hv.
  destruct (C84_closed_items_complete T V E n A g s mi get fmt locof r errs v fill Sh HE Hg Hn HN Hco Hc HL Hq Hgd Ha Hsw Hp He Hf H1 Hlab Han
    Hb Hsh HS H Hu Hv) as (es & K1 & K2 & _).
  exists es. split; [exact K1|]. split; [exact K2|].
  assert (Hnl : everywhere E (fun B q => ~ is_layout B q) g).
  { intros B q Ho. assert (K : everywhere E (fun B (q : gram T V B) => no_layout q) g).
    { intros C q0 Ho'. clear - Hn HN Ho'. induction Ho'; auto; try (apply IHHo'; apply Hn). }
    specialize (K B q Ho). destruct q; apply K. }
  eapply exact_each; [..|exact K2]; eauto.
  - apply (shut_clear_end E Sh HE HS A g Hg Hc Hq Hgd HL); auto. intros B q Ho. specialize (H1 B q Ho). destruct q; try exact I; destruct H1.
  - intros B q Ho. specialize (He B q Ho). destruct q; cbn in *; auto.
Qed.
Print Assumptions C84_says_exactly.

Lemma same_first_by T V (E : env T V) A (g : gram T V A) (N : string -> T -> Prop) :
  everywhere E (fun B q => forall l t, called B q l -> (first E q t <-> N l t)) g -> same_first E g.
Proof. intros H l B q C q' t Ho Ho' Hq Hq' Hf. apply (H C q' Ho' l t Hq'). apply (H B q Ho l t Hq). exact Hf. Qed.

Definition ex_names (l : string) (t : char) : Prop :=
  (l = "digit"%string /\ (48 <= t <= 57)%N) \/ (exists a, l = String "'" (String a "'") /\ t = ex_ch a).
Lemma ex_sym_first a t : first ex_E (ex_sym a) t <-> ex_names (String "'" (String a "'")) t.
Proof.
  split.
  - intros (w & v & H). apply ex_sym_sent in H as [H _]. injection H as -> _. right. exists a. auto.
  - intros [[H _]|(b & H & ->)]; [discriminate|]. injection H as ->. exists [], (ex_ch b).
    apply (la_sym ex_E). apply N.eqb_refl.
Qed.
Lemma ex_digit_first t : first ex_E (GLabel (GSatisfy (fun x => Ret (N.leb 48 x && N.leb x 57))) "digit") t <-> ex_names "digit" t.
Proof.
  split.
  - intros (w & v & H). left. split; [auto|].
    assert (Q : sentence ex_E ex_digit (t :: w) (Z.of_N v - 48)%Z) by (eapply la_fmap; [exact H|reflexivity]).
    apply ex_digit_sent in Q. destruct Q as (t' & Q & ?). injection Q as -> _. auto.
  - intros [[_ H]|(a & H & _)]; [|discriminate]. exists [], t. apply la_label. apply la_sat.
    f_equal. apply andb_true_iff. split; apply N.leb_le; apply H.
Qed.
Lemma ex_names_first : everywhere ex_E (fun B q => forall l t, called B q l -> (first ex_E q t <-> ex_names l t)) (GDelay 0).
Proof.
  apply everywhere_gall; [intros d|]; repeat split;
    lazymatch goal with
    | H : called _ _ _ |- _ => cbn [called] in H; try contradiction; subst
    | |- True => exact I
    | _ => idtac
    end;
    first [exact (proj1 (ex_sym_first "+" t))|exact (proj1 (ex_sym_first "(" t))|exact (proj1 (ex_sym_first ")" t))|exact (proj1 (ex_digit_first t))
          |exact (proj2 (ex_sym_first "+" t))|exact (proj2 (ex_sym_first "(" t))|exact (proj2 (ex_sym_first ")" t))|exact (proj2 (ex_digit_first t))|idtac].
Qed.

(** The expression grammar: exactly what can come next, for all texts. *)
Theorem C53_exactly_case : forall s n r errs,
  scannerless_parse ex_E n ex_top s false = Ret r -> unwrap r false = Raises errs ->
  exists p e, errs = [e] /\ loc_pos (ei_loc e) = Z.of_nat p /\ p <= List.length s /\
    viable ex_E (GDelay 0) (firstn p s) /\
    (p < List.length s -> ~ viable ex_E (GDelay 0) (firstn (p + 1) s)) /\
    (forall t, (exists l, In l (ei_expected e) /\ ex_names l t) <-> viable ex_E (GDelay 0) (firstn p s ++ [t])) /\
    (In "end of file"%string (ei_expected e) <-> exists v, sentence ex_E (GDelay 0) (firstn p s) v).
Proof.
  intros s n r errs H Hu.
  destruct (C53_exactly char ex_V ex_E n Z (GDelay 0) s 5 scannerless_get_loc linecol_fmt (true_loc s) r false errs
    ex_wf_E (conj I I) (scannerless_cohere s) (or_introl (scannerless_exact s)) ex_completable
    (ex_intro _ _ (ex_intro _ _ ex_one_expr)) ex_LL1
    ex_one_token1 ex_layout_free ex_labelled (fun x => x) ex_clear_end) as (p & e & -> & K1 & K2 & K3 & K4 & K5 & K6 & K7 & K8); auto.
  { apply everywhere_gall; [intros d|]; solve_gall. }
  { intros (B & q & Ho & Hq). assert (Q : everywhere ex_E (fun B q => ~ called B q "end of file") (GDelay 0)).
    { apply everywhere_gall; [intros d|]; solve_gall; intros Q; cbn [called] in Q; try contradiction; discriminate Q. }
    exact (Q B q Ho Hq). }
  { exact (same_first_by _ _ _ _ _ ex_names ex_names_first). }
  exists p, e. split; [auto|]. split; [rewrite K1; apply (scannerless_exact s); auto|]. do 3 (split; [auto|]). split; [|exact K7].
  intros t. rewrite <- K6. assert (Q : everywhere ex_E (fun B q => forall l t, called B q l -> (first ex_E q t <-> ex_names l t)) (GDelay 0)).
  { exact ex_names_first. }
  split.
  - intros (l & Hl & Hn). destruct (K8 l Hl) as [->|(B & q & Ho & Hq)]; [destruct Hn as [[Q0 _]|(a & Q0 & _)]; discriminate Q0|]. exists l, B, q. split; [auto|]. split; [auto|]. split; [auto|].
    apply (Q B q Ho l t Hq). exact Hn.
  - intros (l & B & q & Hl & Ho & Hq & Hf). exists l. split; [auto|]. apply (Q B q Ho l t Hq). exact Hf.
Qed.
Print Assumptions C53_exactly_case.

(** The test-suite's JSON parser meets the condition on names, and the others (they are used
    so in [C53_json] and [C84_json_complete]). *)
Lemma json_same_first {F} unescape int_of (float_of : list char -> F) :
  same_first (Json.json_E unescape int_of float_of) Json.jvalue.
Proof.
  apply (same_first_by _ _ _ _ _ (fun l t => json_named [l] t)). intros B q Ho l t Hq. split.
  - intros Hf. exact (json_names_ok unescape int_of float_of B q Ho [l] l t (or_introl eq_refl) Hq Hf).
  - exact (json_names_start unescape int_of float_of B q Ho l t Hq).
Qed.

(** Without the condition on names it is false: here two different things are called "x",
    all other conditions of [C53_exactly] hold, and the error for the empty text names "x",
    although the second of the two things cannot come first. *)
Definition sm_E : env char ex_V := fun _ => GPure 0%Z.
Definition sm_g : ex_gram (char * char) := seq (GLabel (ex_sym "a") "x") (GLabel (ex_sym "b") "x").
Lemma sm_part a w v : sentence sm_E (GLabel (ex_sym a) "x") w v -> w = [ex_ch a].
Proof.
  intros H. apply sent_inv in H. apply sent_inv in H as [-> H]. apply N.eqb_eq in H as ->. reflexivity.
Qed.
Lemma sm_sent w v : sentence sm_E sm_g w v -> w = [ex_ch "a"; ex_ch "b"].
Proof.
  intros H. apply sent_inv in H as (w1 & w2 & v1 & v2 & -> & _ & H1 & H2).
  apply sm_part in H1. apply sm_part in H2. subst. reflexivity.
Qed.
Lemma sm_first a : sentence sm_E (GLabel (ex_sym a) "x") [ex_ch a] (ex_ch a).
Proof. apply la_label, (la_sym sm_E). apply N.eqb_refl. Qed.
Theorem C53_same_names :
  wf_env sm_E /\ wf sm_g /\ everywhere sm_E (completable_node sm_E) sm_g /\ (exists w v, sentence sm_E sm_g w v) /\
  LL1 sm_E sm_g /\ everywhere sm_E one_token_node sm_g /\ everywhere sm_E (fun B q => ~ is_layout B q) sm_g /\
  everywhere sm_E (labelled_node sm_E) sm_g /\ ~ anonymous _ sm_g /\ everywhere sm_E (clear_end_node sm_E) sm_g /\
  everywhere sm_E (fun B q => ~ is_eof B q) sm_g /\ ~ uses_name sm_E sm_g "end of file" /\
  ~ same_first sm_E sm_g /\
  exists r e, scannerless_parse sm_E 20 (seql sm_g GEof) [] false = Ret r /\ unwrap r false = Raises [e] /\
    ei_expected e = ["x"%string] /\
    mentions sm_E sm_g (ei_expected e) (ex_ch "b") /\ ~ viable sm_E sm_g [ex_ch "b"] /\
    ~ says_exactly sm_E sm_g [] (ei_expected e).
Proof.
  assert (Oa : occurs sm_E (GLabel (ex_sym "a") "x") _ sm_g) by (apply oc_seq_l, oc_refl).
  assert (Ob : occurs sm_E (GLabel (ex_sym "b") "x") _ sm_g) by (apply oc_seq_r, oc_refl).
  assert (Fb : first sm_E (GLabel (ex_sym "b") "x") (ex_ch "b")) by (exists [], (ex_ch "b"); apply sm_first).
  assert (Nb : ~ viable sm_E sm_g [ex_ch "b"]) by (intros (w & v & H); apply sm_sent in H; discriminate H).
  assert (Mb : mentions sm_E sm_g ["x"%string] (ex_ch "b")).
  { exists "x"%string. do 2 eexists. split; [left; reflexivity|]. split; [exact Ob|]. split; [reflexivity|exact Fb]. }
  split; [intros d; solve_gall|]. split; [solve_gall|].
  split.
  { apply everywhere_gall; [intros d; solve_gall|]. split; [exists [ex_ch "b"], (ex_ch "b"); apply sm_first|repeat split]. }
  split.
  { exists [ex_ch "a"; ex_ch "b"], (ex_ch "a", ex_ch "b").
    apply (se_seq sm_E _ _ _ (GLabel (ex_sym "a") "x") (GLabel (ex_sym "b") "x") (fun l r => (l, r)) [ex_ch "a"] [ex_ch "b"]); apply sm_first. }
  split; [exists (fun _ _ => True); repeat split|].
  do 3 (split; [apply everywhere_gall; [intros d|]; solve_gall|]).
  split; [intros []|].
  do 2 (split; [apply everywhere_gall; [intros d|]; solve_gall|]).
  split.
  { intros (B & q & Ho & Hq). assert (Q : everywhere sm_E (fun B q => ~ called B q "end of file") sm_g).
    { apply everywhere_gall; [intros d|]; solve_gall; intros Q; cbn [called] in Q; try contradiction; discriminate Q. }
    exact (Q B q Ho Hq). }
  split.
  { intros H. specialize (H "x"%string _ _ _ _ (ex_ch "b") Ob Oa eq_refl eq_refl Fb).
    destruct H as (w & v & H). apply sm_part in H. discriminate H. }
  do 2 eexists. split; [vm_compute; reflexivity|]. split; [reflexivity|]. split; [reflexivity|].
  split; [exact Mb|]. split; [exact Nb|]. intros (H & _). apply Nb. apply (H (ex_ch "b")). exact Mb.
Qed.
Print Assumptions C53_same_names.
