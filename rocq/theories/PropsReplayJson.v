(** C84 for the JSON parser of the test-suite, whose placeholders are JSON values. *)
From Verif Require Import Json JsonSpec JsonProofs JsonLL JsonPatch ReplaySpec PropsReplay PropsMissJson Lexer LL LangInv DiagProofs.

Section J.
Context {F : Type}.
Variable unescape : list char -> list char.
Variable int_of : list char -> Z.
Variable float_of : list char -> F.
Notation E := (json_E unescape int_of float_of).
Notation value := (jvalue (F := F)).
Lemma json_token_diag k t s at_ m i rest : is_kind k t -> skipn i s = t :: rest ->
  diag E s at_ token (token_p k) m i (DSucc t (i + 1) []).
Proof.
  intros Hk Hs. pose proof (dg_label E s at_ token (GSatisfy (fun t => Ret (String.eqb (tk_kind t) k))) k m i (DSucc t (i + 1) [])) as D.
  cbn [d_label] in D. rewrite (proj2 (Nat.ltb_lt _ _)) in D by lia. apply D. apply dg_sat.
  - rewrite <- hd_skipn, Hs. reflexivity.
  - unfold is_kind in Hk. rewrite Hk. rewrite String.eqb_refl. reflexivity.
Qed.
Lemma json_placeholders fill i a : fill "1"%string = [i] -> fill "'""a""'"%string = [a] ->
  is_kind "integer" i -> int_of (tk_value i) = 1%Z ->
  is_kind "string" a -> unescape (tk_value a) = ascii_chars "a" ->
  everywhere E (placeholder_node E fill) value.
Proof.
  intros F1 F2 H1 H2 H3 H4.
  assert (S1 : steady E (jscalar unescape int_of float_of) (fill "1"%string) (JInt 1)).
  { rewrite F1. split; [discriminate|]. split.
    - apply (sent_scalar unescape int_of float_of). rewrite <- H2. apply is_int. exact H1.
    - intros s at_ m j rest Hj Hs. cbn [List.length]. do 4 apply dg_alt_l.
      eapply dg_fmap; [eapply json_token_diag; eauto|]. rewrite H2. reflexivity. }
  assert (S2 : steady E (jstring unescape) (fill "'""a""'"%string) (ascii_chars "a")).
  { rewrite F2. split; [discriminate|]. split.
    - eapply la_fmap; [apply (sent_token unescape int_of float_of "string"%string a H3)|rewrite H4; reflexivity].
    - intros s at_ m j rest Hj Hs. cbn [List.length].
      eapply dg_fmap; [eapply json_token_diag; eauto|]. rewrite H4. reflexivity. }
  apply everywhere_gall; [intros d|]; solve_gall; first [apply S1 | apply S2].
Qed.
Lemma json_shut : everywhere E (shut_items E (fun _ => True)) value /\ (forall d, shut E (fun _ => True) (E d)).
Proof.
  assert (P : forall A (p : gram token json_V A) a b,
    shut E (fun _ => True) (between (punct (String a "")) (punct (String b "")) p)).
  { intros A p a b. split.
    - split; [exact I|]. intros [v H]. eapply punct_not_empty. exact H.
    - intros [v H]. apply lang_inv in H as (w1 & w2 & v1 & v2 & Hw & _ & H). apply app_nil_inv in Hw as [-> ->]. destruct H as [_ H]. eapply punct_not_empty. exact H. }
  split.
  - apply everywhere_gall; [intros d|]; solve_gall; intros [v H].
    all: first [eapply value_eats; exact H | eapply member_eats; exact H].
  - intros d. cbn [shut json_E]. split; [split|]; [cbn [shut jscalar]; repeat split|exact (P _ _ "{"%char "}"%char)|exact (P _ _ "["%char "]"%char)].
Qed.
Lemma json_forward : everywhere E forward_node value.
Proof. apply everywhere_gall; [intros d|]; solve_gall. Qed.
Lemma json_eof_free : everywhere E eof_free_node value.
Proof. apply everywhere_gall; [intros d|]; solve_gall. Qed.
Lemma json_attempt_free : attempt_free E value.
Proof. apply everywhere_gall; [intros d|]; solve_gall. Qed.

(** The errors [loads] would report for any token sequence, if it were run with recovery,
    are exactly the errors one meets when mending the text token by token; in place of the
    placeholders one writes the tokens [1] and ["a"]. *)
Theorem C84_json : forall fill i a toks n r errs v,
  fill "1"%string = [i] -> fill "'""a""'"%string = [a] ->
  is_kind "integer" i -> int_of (tk_value i) = 1%Z ->
  is_kind "string" a -> unescape (tk_value a) = ascii_chars "a" ->
  lexer_parse E n (json_parser (F := F)) toks true = Ret r ->
  unwrap r false = Raises errs -> unwrap r true = Returns v ->
  exists es, edits_in es = toks /\
    one_by_one E value (filling E value fill) eq toks (loc_from_stream toks) v 0 [] es errs.
Proof.
  intros fill i a toks n r errs v F1 F2 H1 H2 H3 H4 H Hu Hv.
  destruct json_shut as [Z1 Z2].
  refine (C84_placeholders_exactly _ _ E n _ value toks 5%Z _ _ (loc_from_stream toks) r errs v fill (fun _ => True) _ _ _ _ _ _ _ _ _ _ _ _ _ _ _ _ H Hu Hv).
  - apply json_wf_E.
  - apply json_wf.
  - apply json_no_layout.
  - apply json_no_layout_E.
  - apply lexer_cohere.
  - apply json_completable.
  - apply json_LL1.
  - apply json_quiet.
  - apply json_guarded.
  - apply json_attempt_free.
  - apply json_single_withs.
  - eapply json_placeholders; eauto.
  - apply json_eof_free.
  - apply json_forward.
  - exact Z1.
  - intros d _. apply Z2.
Qed.
Print Assumptions C84_json.
End J.

(** [[{"b": , : null}}]]: a value is missing, then a key, and a brace is too many *)
Definition ex_toks : list token :=
  [mtok "punct" "[" 0; mtok "punct" "{" 1; mtok "string" "b" 2; mtok "punct" ":" 3; mtok "punct" "," 4; mtok "punct" ":" 5;
   mtok "null" "null" 6; mtok "punct" "}" 7; mtok "punct" "}" 8; mtok "punct" "]" 9].
Definition ex_fill (l : string) : list token :=
  if String.eqb l "1" then [mtok "integer" "1" 0] else if String.eqb l "'""a""'" then [mtok "string" "a" 0] else [].
Example C84_case_json : exists r e1 e2 e3 v es,
  lexer_parse ex_mJ 80 json_parser ex_toks true = Ret r /\
  unwrap r false = Raises [e1; e2; e3] /\ unwrap r true = Returns v /\
  (ei_loc e1, ei_op e1) = (Loc 4 0 4, Some (Insert "1")) /\
  (ei_loc e2, ei_op e2) = (Loc 5 0 5, Some (Insert "'""a""'")) /\
  (ei_loc e3, ei_op e3) = (Loc 8 0 8, Some (Skip 1)) /\
  edits_in es = ex_toks /\
  one_by_one ex_mJ jvalue (filling ex_mJ jvalue ex_fill) eq ex_toks (loc_from_stream ex_toks) v 0 [] es [e1; e2; e3].
Proof.
  destruct (lexer_parse ex_mJ 80 json_parser ex_toks true) as [r| |] eqn:H; [|vm_compute in H; discriminate H|vm_compute in H; discriminate H].
  destruct (unwrap r false) as [v0|errs] eqn:Hu; [exfalso|].
  { revert H Hu. intros H. vm_compute in H. injection H as <-. intros Hu. vm_compute in Hu. discriminate Hu. }
  destruct (unwrap r true) as [v|] eqn:Hv.
  2:{ exfalso. revert H Hv. intros H. vm_compute in H. injection H as <-. intros Hv. vm_compute in Hv. discriminate Hv. }
  destruct (C84_json (fun x => x) (fun x => Z.of_nat (List.length x)) (fun x : list char => x) ex_fill (mtok "integer" "1" 0) (mtok "string" "a" 0)
    ex_toks 80 r errs v eq_refl eq_refl eq_refl eq_refl eq_refl eq_refl H Hu Hv) as (es & K1 & K2).
  assert (Q : exists e1 e2 e3, errs = [e1; e2; e3] /\
    (ei_loc e1, ei_op e1) = (Loc 4 0 4, Some (Insert "1")) /\
    (ei_loc e2, ei_op e2) = (Loc 5 0 5, Some (Insert "'""a""'")) /\
    (ei_loc e3, ei_op e3) = (Loc 8 0 8, Some (Skip 1))).
  { revert Hu. clear -H. vm_compute in H. injection H as <-. vm_compute. intros [= <-].
    do 3 eexists. split; [reflexivity|]. repeat split. }
  destruct Q as (e1 & e2 & e3 & -> & Q1 & Q2 & Q3).
  exists r, e1, e2, e3, v, es. repeat (split; [assumption || reflexivity|]). exact K2.
Qed.
