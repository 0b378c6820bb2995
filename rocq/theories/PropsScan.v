(** Property C66: the JSON parser of the test-suite that reads characters
    (tests/parsers/json_scannerless.py) against the one that reads tokens
    (tests/parsers/json.py) and against the description of JSON texts. *)
From Verif Require Import Fuel Api ApiSpec ApiProofs Locations Fuse PropsFuse DiagProofs PropsDiag
  CostSpec CostProofs PropsCost Depth PropsDepth LL LangInv PropsLL Examples
  Json JsonSpec JsonText JsonTextSpec JsonTextProofs JsonTextMain JsonLL PropsJson PropsJsonText JsonScan JsonScanProofs.
From Coq Require Import Lia.

(** *** The parser is well formed *)
Lemma wf_token f : (forall s n v, f s = Some (n, v) -> n <= List.length s) ->
  forall s pos e v, pos <= List.length s -> re_token f s pos = Some (e, v) -> pos <= e <= List.length s.
Proof.
  intros H s pos e v Hp. unfold re_token. destruct (f (skipn pos s)) as [[n x]|] eqn:Q; [|discriminate].
  intros [= <- _]. apply H in Q. rewrite skipn_length in Q. pose proof (span_le is_ws (skipn n (skipn pos s))) as L.
  rewrite !skipn_length in L. lia.
Qed.
Lemma wf_ows : forall s pos e v, pos <= List.length s -> re_ows s pos = Some (e, v) -> pos <= e <= List.length s.
Proof.
  intros s pos e v Hp. unfold re_ows. intros [= <- _]. pose proof (span_le is_ws (skipn pos s)) as L. rewrite skipn_length in L. lia.
Qed.
Lemma le_starts x s : starts x s = true -> List.length x <= List.length s.
Proof. intros H. apply starts_firstn in H as [<- _]. rewrite firstn_length. lia. Qed.
Lemma le_number s n v : pat_number s = Some (n, v) -> n <= List.length s.
Proof. unfold pat_number, whole. destruct (float_len s) as [k|] eqn:Q; [|discriminate]. intros [= <- _]. apply float_len_sound in Q as [_ L]. lia. Qed.
Lemma le_integer s n v : pat_integer s = Some (n, v) -> n <= List.length s.
Proof. unfold pat_integer, whole. destruct (int_len s) as [k|] eqn:Q; [|discriminate]. intros [= <- _]. apply int_len_sound in Q as (z & _ & L). lia. Qed.
Lemma le_bool s n v : pat_bool s = Some (n, v) -> n <= List.length s.
Proof.
  unfold pat_bool. destruct (starts (ascii_chars "true") s) eqn:Q; [intros [= <- _]; exact (le_starts _ _ Q)|].
  destruct (starts (ascii_chars "false") s) eqn:Q'; [intros [= <- _]; exact (le_starts _ _ Q')|discriminate].
Qed.
Lemma le_null s n v : pat_null s = Some (n, v) -> n <= List.length s.
Proof. unfold pat_null. destruct (starts (ascii_chars "null") s) eqn:Q; [intros [= <- _]; exact (le_starts _ _ Q)|discriminate]. Qed.
Lemma le_string s n v : pat_string s = Some (n, v) -> n <= List.length s.
Proof.
  unfold pat_string, string_len. destruct s as [|c s]; [discriminate|]. destruct (N.eqb c 34); [|discriminate].
  destruct (body_len s) as [k|] eqn:B; [|discriminate]. intros H.
  assert (L : k < List.length s).
  { apply (body_len_sound (S (List.length s))) in B as (cs & _ & Q & _); [|lia]. apply nth_error_Some. congruence. }
  destruct k; [discriminate|]. injection H as <- _. cbn [List.length]. lia.
Qed.

Lemma seq_inv T V (E : env T V) s at_ A B C (p : gram T V A) (q : gram T V B) (merge : A -> B -> C) m i o :
  diag E s at_ C (GSeq p q merge) m i o ->
  (exists v j X o', diag E s at_ A p m i (DSucc v j X) /\ diag E s at_ B q m j o' /\ o = on_dvalue (merge v) (d_after i j X o')) \/
  (exists b l X, diag E s at_ A p m i (DFail b l X) /\ o = DFail b l X) \/
  (exists e, diag E s at_ A p m i (DExn e) /\ o = DExn e).
Proof.
  intros H.
  assert (K : forall D (g : gram T V D) m i o, diag E s at_ D g m i o ->
    match g in Verif.Grammar.gram _ _ D return dres D -> Prop with
    | @GSeq _ _ A B C p q merge => fun o =>
      (exists v j X o', diag E s at_ A p m i (DSucc v j X) /\ diag E s at_ B q m j o' /\ o = on_dvalue (merge v) (d_after i j X o')) \/
      (exists b l X, diag E s at_ A p m i (DFail b l X) /\ o = DFail b l X) \/
      (exists e, diag E s at_ A p m i (DExn e) /\ o = DExn e)
    | _ => fun _ => True
    end o).
  { clear. intros D g m i o H. destruct H; try exact I.
    - left. eauto 10.
    - right; left. eauto.
    - right; right. eauto. }
  exact (K _ _ _ _ _ H).
Qed.

Section Scan.
Context {F : Type}.
Variable unescape : list char -> list char.
Variable int_of : list char -> Z.
Variable float_of : list char -> F.
Notation E' := (scan_E unescape int_of float_of).
Notation top' := (scan_parser (F := F)).

Lemma scan_wf_E : wf_env E'.
Proof using.
  intros d. solve_gall; try solve [eapply wf_ows; eassumption]; try solve [intros; subst; apply N.eqb_refl].
  all: match goal with
    | H : re_ows _ _ = _ |- _ => apply wf_ows in H; [|assumption]; lia
    | H : re_token _ _ _ = _ |- _ => apply wf_token in H; [lia| |assumption]; intros s' n x;
        first [apply le_number|apply le_integer|apply le_bool|apply le_null|apply le_string]
    | H : _ \/ False |- _ => destruct H as [<- | []]; apply N.eqb_refl
    end.
Qed.
Lemma scan_wf : wf top'.
Proof using. solve_gall; match goal with H : re_ows _ _ = _ |- _ => apply wf_ows in H; [|assumption]; lia end. Qed.
Lemma scan_no_attempt : no_attempt top' /\ forall d, no_attempt (E' d).
Proof using. split; [|intros d]; solve_gall. Qed.
Lemma scan_lay src : lay_ok E' top' src (true_loc src).
Proof using. left. apply scannerless_exact. Qed.
Lemma scan_size : bounded_size E' top'.
Proof using.
  destruct (size_exists top') as [a Ha]; [solve_gall|].
  destruct (size_exists (E' 0)) as [b Hb]; [solve_gall|].
  exists (a + b). split; [eapply size_mono; [|exact Ha]; lia|]. intros d. eapply size_mono; [|exact Hb]. lia.
Qed.
Lemma spunct_not_empty a v : ~ lang E' _ (spunct a) [] v.
Proof using.
  intros H. apply lang_inv in H as (w1 & w2 & v1 & v2 & Hw & _ & H & _). apply eq_sym, app_eq_nil in Hw as [-> ->].
  apply lang_inv in H as (_ & y & Hy & H). destruct y; [|discriminate]. inversion H.
Qed.
Lemma scan_no_lcall d d' : ~ lcall E' _ (E' d) d'.
Proof using.
  assert (K : forall A f x (h : list char -> out A) d, ~ lcall E' _ (GFmap (GLabel (GRegexp (re_token f)) x) h) d).
  { intros A f x h e H. apply lcall_inv in H. apply lcall_inv in H. apply lcall_inv in H. exact H. }
  assert (B : forall A (p : gram char (@json_V F) A) a b d, ~ lcall E' _ (between (spunct a) (spunct b) p) d).
  { intros A p a b e H. apply lcall_inv in H as [H|[[v H] _]]; [|eapply spunct_not_empty; eauto].
    apply lcall_inv in H as [H|[_ H]]; apply lcall_inv in H; exact H. }
  intros H. apply lcall_inv in H. apply lcall_inv in H as [H|H]; [apply lcall_inv in H as [H|H]|].
  - apply lcall_inv in H. unfold sscalar in H.
    apply lcall_inv in H as [H|H]; [apply lcall_inv in H as [H|H]; [apply lcall_inv in H as [H|H];
      [apply lcall_inv in H as [H|H]|]|]|]; eapply K; exact H.
  - apply lcall_inv in H. apply lcall_inv in H. eapply B; exact H.
  - apply lcall_inv in H. apply lcall_inv in H. eapply B; exact H.
Qed.
Lemma scan_depth : bounded_depth E' top'.
Proof using.
  exists 1. assert (L : forall d, left_depth E' 0 (E' d)) by (intros d d' H; exact (scan_no_lcall d d' H)).
  split; [intros d _; apply L|]. intros d. apply left_mono, L.
Qed.
(** the number of parser calls, and how deep they nest, are linear in the length of the text *)
Theorem C66_linear : exists k, forall src n,
  fst (parse_counted E' n top' src scannerless_get_loc linecol_fmt) <= k * (List.length src + 1) /\
  fst (parse_nested E' n top' src scannerless_get_loc linecol_fmt) <= k * (List.length src + 1).
Proof using.
  pose proof scan_no_attempt as [N1 N2].
  pose proof (C57_linear char json_V E' (json F) top' scan_wf_E scan_wf N1 N2 scan_size scan_depth) as [k1 H1].
  pose proof (C60_linear char json_V E' (json F) top' scan_wf_E scan_wf scan_size scan_depth) as [k2 H2].
  exists (k1 + k2). intros src n. specialize (H1 src scannerless_get_loc linecol_fmt n). specialize (H2 src scannerless_get_loc linecol_fmt n). nia.
Qed.
End Scan.
Print Assumptions C66_linear.

(** *** Against the parser with a lexer *)
Lemma scan_skip F unescape int_of float_of src B (g : gram char (@json_V F) B) o :
  diag (scan_E unescape int_of float_of) src (true_loc src) B g 0 (after_ws src 0) o ->
  diag (scan_E unescape int_of float_of) src (true_loc src) B (seqr ows g) 0 0 (d_after 0 (after_ws src 0) [] o).
Proof.
  intros H.
  pose proof (dg_seq (scan_E unescape int_of float_of) src (true_loc src) _ _ _ ows g (fun _ r => r) 0 0
    (firstn (span is_ws src) src) (after_ws src 0) [] o) as D.
  assert (I : forall x : dres B, on_dvalue (fun r => r) x = x) by (intros []; reflexivity).
  rewrite I in D. apply D; [apply dg_re; reflexivity|exact H].
Qed.
Lemma at_tokens_end src p toks : laid src p toks -> p <= List.length src ->
  exists q, p <= q <= List.length src /\ after_ws src q = List.length src /\
    match rev toks with t :: _ => tk_end t = true_loc src q | [] => q = p end.
Proof.
  induction 1 as [p H|p e t toks H1 H2 H3 H4 H5 HL IH]; intros Hp; [exists p; split; [lia|split; [exact H|reflexivity]]|].
  destruct IH as (q & Q1 & Q2 & Q3); [lia|]. exists q. pose proof (after_ws_le src p Hp). split; [lia|]. split; [exact Q2|].
  cbn [rev]. destruct (rev toks) as [|t' l]; cbn [app]; [subst q; exact H5|exact Q3].
Qed.
Lemma span_all (f : char -> bool) s : span f s = List.length s -> Forall (fun c => f c = true) s.
Proof. induction s as [|c s IH]; intros H; [constructor|]. cbn in H. destruct (f c) eqn:Q; [|discriminate]. constructor; auto. Qed.
Lemma white_rest src q : q <= List.length src -> after_ws src q = List.length src -> Forall white (skipn q src).
Proof.
  unfold after_ws. intros L H. assert (K : span is_ws (skipn q src) = List.length (skipn q src)) by (rewrite skipn_length; lia).
  apply span_all in K. eapply Forall_impl; [|exact K]. intros c. apply is_ws_spec.
Qed.

(** Two answers for the text [src], of [loads] of json.py and of
    json_scannerless.py: the same value, or one error each with the same
    expected values.  They are at the same place, unless only white space
    remains: then the first is at the end of the last token and the second at
    the end of the text. *)
Definition same_answer {A} (src : list char) (u u' : unwrapped A) : Prop :=
  match u, u' with
  | Returns v, Returns v' => v' = v
  | Raises errs, Raises errs' => exists e e' p, errs = [e] /\ errs' = [e'] /\
      ei_expected e' = ei_expected e /\ ei_op e = None /\ ei_op e' = None /\
      p <= List.length src /\ ei_loc e = true_loc src p /\
      (ei_loc e' = ei_loc e \/ Forall white (skipn p src) /\ ei_loc e' = true_loc src (List.length src))
  | _, _ => False
  end.

Section Answers.
Context {F : Type}.
Variable float_of : list char -> F.
Notation E := (json_E json_unescape json_int float_of).
Notation E' := (scan_E json_unescape json_int float_of).

Lemma scan_same src toks : laid src 0 toks ->
  same_outcome E E' (json_parser (F := F)) (scan_parser (F := F)) toks src lexer_get_loc scannerless_get_loc
    linecol_fmt linecol_fmt (loc_from_stream toks) (true_loc src) 5 5 eq (place src toks).
Proof using.
  intros HL. apply sees_api.
  - apply json_wf_E.
  - apply wf_eof, json_wf.
  - apply lexer_cohere.
  - right. split; [solve_gall|apply json_no_layout_E].
  - apply scan_wf_E.
  - apply scan_wf.
  - apply scannerless_cohere.
  - apply scan_lay.
  - intros o D.
    destruct (alike_outcomes E E' toks src (loc_from_stream toks) (true_loc src) (place src toks) all_link eq_json (laid_places _ _ _ HL)
      (json_alike _ _ _ _ _ HL) _ _ 0 0 o D _ eq false _ (json_top _ _ _ _ _)) as (o' & D' & O); [lia|].
    apply outcomes_sees in O. rewrite (place_0 _ _ _ HL) in D'.
    apply seq_inv in D' as [(v & j & X & o2 & D1 & D2 & ->)|[(b & l & X & D1 & ->)|(e & D1 & ->)]];
      apply scan_skip in D1; cbn [d_after] in D1.
    + eexists. split; [exact (dg_seq E' src (true_loc src) _ _ _ _ GEof (fun l _ => l) 0 0 _ _ _ _ D1 D2)|].
      assert (XX : (if Nat.ltb (after_ws src 0) j then X else [] ++ X) = X) by (destruct (Nat.ltb _ _); reflexivity). rewrite XX.
      destruct o as [w k Y|b l Y|e], o2 as [w' k' Y'|b' l' Y'|e']; cbn in *; try contradiction; auto; destruct b'; auto.
    + destruct b; [exists (DFail true l X)|exists (DFail (Nat.ltb 0 (after_ws src 0)) l X)];
        (split; [apply dg_seq_fail; exact D1|]); destruct o; cbn in *; auto.
    + exists (DExn e). split; [apply dg_seq_exn; exact D1|exact O].
Qed.
Lemma lexes src : exists n toks, split_tokens n src json_spec = Ret (LexOk toks) /\ laid src 0 toks.
Proof using.
  destruct (C62_total (fun x => x) src) as (n & u & H). unfold loads, json_loads in H.
  destruct (split_tokens n src json_spec) as [[toks|l]|e|] eqn:S; cbn in H; try discriminate.
  exists n, toks. split; [exact S|]. unfold split_tokens in S. apply lex_laid in S as (t & S & K); [|lia|symmetry; apply true_loc_0].
  injection S as ->. exact K.
Qed.
Lemma split_det src n n' x x' : split_tokens n src json_spec = Ret x ->
  split_tokens n' src json_spec = Ret x' -> x = x'.
Proof using.
  unfold split_tokens. intros H H'. apply (lex_loop_mono _ _ (Nat.max n n')) in H, H'; [|lia|lia]. congruence.
Qed.
Lemma parse_det T V (E0 : env T V) n n' A (g : gram T V A) s rec mi get fmt r r' :
  parse E0 n g s rec mi get fmt = Ret r -> parse E0 n' g s rec mi get fmt = Ret r' -> r = r'.
Proof using.
  intros H H'. assert (K : parse E0 n g s rec mi get fmt = parse E0 n' g s rec mi get fmt) by (apply parse_agree; congruence). congruence.
Qed.
Lemma sloads_mono n m src u : n <= m -> sloads float_of n src = Ret u -> sloads float_of m src = Ret u.
Proof using.
  unfold sloads, scan_loads. intros Hn H. destruct (scannerless_parse E' n scan_parser src false) as [r|e|] eqn:Q; try discriminate.
  unfold scannerless_parse in *. rewrite (parse_mono _ _ _ _ _ _ _ _ _ _ _ _ _ Hn Q). exact H.
Qed.
Lemma loads_det n m src u u' : loads float_of n src = Ret u -> loads float_of m src = Ret u' -> u = u'.
Proof using.
  unfold loads, json_loads. intros H H'.
  destruct (split_tokens n src json_spec) as [x|e|] eqn:S; cbn in H; try discriminate.
  destruct (split_tokens m src json_spec) as [x'|e'|] eqn:S'; cbn in H'; try discriminate.
  rewrite <- (split_det _ _ _ _ _ S S') in H'. destruct x as [toks|l]; [|congruence].
  destruct (lexer_parse E n json_parser toks false) as [r|e|] eqn:Q; cbn in H; try discriminate.
  destruct (lexer_parse E m json_parser toks false) as [r'|e'|] eqn:Q'; cbn in H'; try discriminate.
  unfold lexer_parse in Q, Q'.   rewrite (parse_det _ _ _ _ _ _ _ _ _ _ _ _ _ _ Q Q') in H. congruence.
Qed.

Theorem C66_same_answer : forall src, exists u u',
  (exists n, loads float_of n src = Ret (Loads u)) /\ (exists n, sloads float_of n src = Ret u') /\ same_answer src u u'.
Proof using.
  intros src. destruct (C62_total float_of src) as (n & u & H). destruct (lexes src) as (n0 & toks & S0 & HL).
  pose proof H as H0. unfold loads, json_loads in H0. destruct (split_tokens n src json_spec) as [[toks'|l]|e|] eqn:S; cbn in H0; try discriminate.
  pose proof (split_det _ _ _ _ _ S0 S) as [= <-].
  destruct (lexer_parse E n json_parser toks false) as [r|e|] eqn:Q; cbn in H0; try discriminate. injection H0 as Hu.
  destruct (scan_same src toks HL) as (K1 & K2 & _). exists u. destruct u as [v|errs].
  - destruct (K1 _ _ _ Q Hu) as (n' & r' & v' & Q' & Hu' & <-). exists (Returns v). split; [eauto|]. split; [|reflexivity].
    exists n'. unfold sloads, scan_loads, scannerless_parse. rewrite Q'. cbn. congruence.
  - destruct (K2 _ _ _ Q Hu) as (n' & r' & e & e' & p & Q' & Hu' & -> & Hp & L1 & L2 & L3 & X & O). exists (Raises [e']). split; [eauto|]. split.
    + exists n'. unfold sloads, scan_loads, scannerless_parse. rewrite Q'. cbn. congruence.
    + assert (O' : ei_op e = None).
      { destruct (C43_plain_diagnostics _ _ E _ (json_parser (F := F)) toks 5 lexer_get_loc linecol_fmt (loc_from_stream toks) false
          (json_wf_E _ _ _) (wf_eof _ _ (json_wf (F := F))) (lexer_cohere toks)) as (_ & D & _); [right; split; [solve_gall|apply json_no_layout_E]|].
        destruct (proj1 (D [e])) as (b & l & Y & _ & K); [eauto|]. injection K as ->. reflexivity. }
      destruct (Nat.lt_ge_cases p (List.length toks)) as [Hp'|Hp'].
      * exists e, e', (place src toks p). do 5 (split; [auto|]). split; [apply (place_le _ _ _ HL)|].
        rewrite L1, L2. rewrite (at_place _ _ HL p Hp'). auto.
      * destruct (at_tokens_end _ _ _ HL) as (q & Hq & W & R); [lia|]. exists e, e', q. do 5 (split; [auto|]). split; [lia|].
        assert (Hpl : place src toks p = List.length src) by (unfold place; rewrite (proj2 (nth_error_None toks p) Hp'); reflexivity).
        split; [|right; split; [apply white_rest; [lia|exact W]|rewrite L2, Hpl; reflexivity]].
        rewrite L1. unfold loc_from_stream. rewrite (proj2 (nth_error_None toks p) Hp').
        destruct (rev toks) as [|t l] eqn:Rv; [|exact R]. assert (toks = []) by (rewrite <- (rev_involutive toks), Rv; reflexivity). subst toks.
        cbn in Hp. assert (p = 0) by lia. subst. rewrite true_loc_0. reflexivity.
Qed.
(** ... whatever the fuel: the two results that are returned are related *)
Theorem C66_related : forall src n n' u u',
  loads float_of n src = Ret (Loads u) -> sloads float_of n' src = Ret u' -> same_answer src u u'.
Proof using.
  intros src n n' u u' H H'. destruct (C66_same_answer src) as (v & v' & [k K] & [k' K'] & S).
  pose proof (loads_det _ _ _ _ _ H K) as [= ->].
  apply (sloads_mono _ (Nat.max n' k')) in H'; [|lia]. apply (sloads_mono _ (Nat.max n' k')) in K'; [|lia]. congruence.
Qed.
Theorem C66_total : forall src, exists n u, sloads float_of n src = Ret u.
Proof using. intros src. destruct (C66_same_answer src) as (u & u' & _ & [n H] & _). eauto. Qed.
(** [loads] returns the values of JSON texts *)
Theorem C66_text : forall src v,
  (exists n, sloads float_of n src = Ret (Returns v)) <->
  exists toks, written src toks /\ is_json json_unescape json_int float_of toks v.
Proof using.
  intros src v. rewrite <- C62_text. destruct (C66_same_answer src) as (u & u' & [k K] & [k' K'] & S). split; intros [n H].
  - exists k. rewrite K. pose proof (C66_related _ _ _ _ _ K H) as R. destruct u; cbn in R; [congruence|contradiction].
  - exists k'. rewrite K'. pose proof (C66_related _ _ _ _ _ H K') as R. destruct u'; cbn in R; [congruence|contradiction].
Qed.
End Answers.
Print Assumptions C66_same_answer.
Print Assumptions C66_related.
Print Assumptions C66_total.
Print Assumptions C66_text.

(** The two parsers meet the hypotheses of C65: for every text that begins with
    a token, and - with white space skipped first - for every text. *)
Section Fused.
Context {F : Type}.
Variable float_of : list char -> F.
Notation E := (json_E json_unescape json_int float_of).
Notation E' := (scan_E json_unescape json_int float_of).
Lemma C65_case_json src toks : laid src 0 toks -> after_ws src 0 = 0 ->
  same_outcome E E' (json_parser (F := F)) (seql (svalue (F := F)) GEof) toks src lexer_get_loc scannerless_get_loc
    linecol_fmt linecol_fmt (loc_from_stream toks) (true_loc src) 5 5 eq (place src toks).
Proof using.
  intros HL H0. apply (C65_fused _ _ _ _ _ _ _ _ eq _ _ _ _ _ _ _ _ _ _ _ _ (place src toks) all_link eq_json).
  - apply json_wf_E.
  - apply wf_eof, json_wf.
  - apply lexer_cohere.
  - right. split; [solve_gall|apply json_no_layout_E].
  - apply scan_wf_E.
  - solve_gall.
  - apply scannerless_cohere.
  - left. apply scannerless_exact.
  - apply (laid_places _ _ _ HL).
  - rewrite (place_0 _ _ _ HL). exact H0.
  - apply (json_alike _ _ _ _ _ HL).
  - apply json_top.
Qed.
Lemma C65_case_json_skip src toks : laid src 0 toks ->
  same_outcome E E' (json_parser (F := F)) (seqr ows (seql (svalue (F := F)) GEof)) toks src lexer_get_loc scannerless_get_loc
    linecol_fmt linecol_fmt (loc_from_stream toks) (true_loc src) 5 5 eq (place src toks).
Proof using.
  intros HL. apply (C65_fused_skip _ _ _ _ _ _ _ _ _ eq _ _ _ _ _ _ _ _ _ _ _ _ _ (place src toks) all_link eq_json (firstn (span is_ws src) src)).
  - apply json_wf_E.
  - apply wf_eof, json_wf.
  - apply lexer_cohere.
  - right. split; [solve_gall|apply json_no_layout_E].
  - apply scan_wf_E.
  - solve_gall; match goal with H : re_ows _ _ = _ |- _ => apply wf_ows in H; [|assumption]; lia end.
  - apply scannerless_cohere.
  - left. apply scannerless_exact.
  - apply (laid_places _ _ _ HL).
  - rewrite (place_0 _ _ _ HL). apply dg_re. reflexivity.
  - apply (json_alike _ _ _ _ _ HL).
  - apply json_top.
Qed.
End Fused.
