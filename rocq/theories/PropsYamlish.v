(** Property C67: the client of tests/parsers/yamlish.py, which uses the layout
    combinators, against the description of its documents in YamlishSpec.v. *)
From Verif Require Import Fuel Api ApiSpec ApiProofs Locations PegSpec PegProofs PropsPeg DiagProofs PropsDiag TermSpec Term PropsTerm PropsTotal
  CostSpec CostProofs PropsCost Depth PropsDepth LL LangInv PropsLL Examples
  Json JsonSpec JsonProofs JsonText JsonTextProofs JsonScanProofs PropsScan Yamlish YamlishSpec YamlishProofs YamlishErr.
From Coq Require Import Lia.

(** *** The parser is well formed, and does not loop *)
Lemma matched_le s pos n e v : matched s pos n = Some (e, v) -> n <= List.length (skipn pos s) -> pos <= List.length s ->
  pos <= e <= List.length s.
Proof. unfold matched. intros [= <- _]. rewrite skipn_length. lia. Qed.
Lemma eol_le space s pos e v : pos <= List.length s -> re_eol space s pos = Some (e, v) -> pos <= e <= List.length s /\ pos < e.
Proof.
  intros Hp. unfold re_eol. destruct (skipn pos s) as [|c r] eqn:Q; [discriminate|]. destruct (N.eqb c 10); [|discriminate]. intros H.
  pose proof (span_le space r). split; [|unfold matched in H; injection H as <- _; lia].
  eapply matched_le; [exact H|rewrite Q; cbn; lia|exact Hp].
Qed.
Lemma ows_le space s pos e v : pos <= List.length s -> re_yows space s pos = Some (e, v) -> pos <= e <= List.length s.
Proof. intros Hp H. eapply matched_le; [exact H| |exact Hp]. apply span_le. Qed.
Lemma ident_le s pos e v : re_ident s pos = Some (e, v) -> pos < e <= List.length s.
Proof.
  unfold re_ident. destruct (skipn pos s) as [|c r] eqn:Q; [discriminate|]. destruct (ystart c); [|discriminate]. intros H.
  pose proof (span_le ychar r). assert (L : S (List.length r) = List.length s - pos) by (rewrite <- skipn_length, Q; reflexivity).
  unfold matched in H. injection H as <- _. lia.
Qed.
Lemma colon_le s pos e v : re_colon s pos = Some (e, v) -> pos < e <= List.length s.
Proof.
  unfold re_colon. cbv zeta. set (n := span yblank (skipn pos s)). destruct (skipn n (skipn pos s)) as [|c r] eqn:Q; [discriminate|].
  destruct (N.eqb c 58); [|discriminate]. intros H. pose proof (span_le yblank r).
  assert (L : S (List.length r) = List.length s - pos - n) by (rewrite <- !skipn_length, Q; reflexivity).
  unfold matched in H. injection H as <- _. lia.
Qed.

Section P.
Variable space : char -> bool.
Notation E := (yaml_E space).
Notation top := (yaml_parser space).

Lemma yaml_wf_E : wf_env E.
Proof using.
  intros d. solve_gall; match goal with
    | H : re_eol _ _ _ = _ |- _ => apply eol_le in H; [lia|assumption]
    | H : re_ident _ _ = _ |- _ => apply ident_le in H; lia
    | H : re_colon _ _ = _ |- _ => apply colon_le in H; lia
    end.
Qed.
Lemma yaml_wf : wf top.
Proof using. solve_gall; match goal with H : re_yows _ _ _ = _ |- _ => apply ows_le in H; [lia|assumption] end. Qed.
Lemma yaml_lay src : lay_ok E top src (true_loc src).
Proof using. left. apply scannerless_exact. Qed.
Lemma ident_not_empty v : ~ lang E _ yident [] v.
Proof using.
  intros H. apply lang_inv in H as (s & i & e & H & K). apply ident_le in H. apply eq_sym, map_eq_nil in K.
  apply (f_equal (@List.length _)) in K. rewrite firstn_length, skipn_length in K. cbn in K. lia.
Qed.
Lemma eol_not_empty v : ~ lang E _ (yeol space) [] v.
Proof using.
  intros H. apply lang_inv in H as (s & i & e & H & K). unfold re_eol in H.
  destruct (skipn i s) as [|c r] eqn:Q; [discriminate|]. destruct (N.eqb c 10); [|discriminate]. injection H as <- _.
  cbn [List.length] in K. replace (i + S (span space r) - i) with (S (span space r)) in K by lia. discriminate.
Qed.
Lemma key_not_empty v : ~ lang E _ (seql yident ycolon) [] v.
Proof using.
  intros H. apply lang_inv in H as (w1 & w2 & v1 & v2 & Hw & _ & H & _). apply eq_sym, app_eq_nil in Hw as [-> ->].
  eapply ident_not_empty; eauto.
Qed.
Lemma pair_not_empty v : ~ lang E _ (E 0) [] v.
Proof using.
  intros H. apply lang_inv in H as (w1 & w2 & v1 & v2 & Hw & _ & H & _). apply eq_sym, app_eq_nil in Hw as [-> ->].
  eapply key_not_empty; eauto.
Qed.
Lemma yaml_quiet : everywhere E (quiet_node E) top.
Proof using.
  apply everywhere_gall; [intros d|]; solve_gall; intros; try (eexists; reflexivity).
  all: intros H; apply lang_inv in H; apply lang_inv in H; eapply pair_not_empty; exact H.
Qed.
Lemma yaml_no_lcall d d' : ~ lcall E _ (E d) d'.
Proof using.
  intros H. apply lcall_inv in H as [H|[[v H] _]]; [|eapply key_not_empty; eauto].
  apply lcall_inv in H as [H|[[v H] _]]; [apply lcall_inv in H; exact H|eapply ident_not_empty; eauto].
Qed.
Lemma yaml_guarded : guarded E top.
Proof using. intros d _. constructor. intros d' H. exfalso. eapply yaml_no_lcall; eauto. Qed.
Lemma yaml_no_attempt : no_attempt top /\ forall d, no_attempt (E d).
Proof using. split; [|intros d]; solve_gall. Qed.
Lemma yaml_size : bounded_size E top.
Proof using.
  destruct (size_exists top) as [a Ha]; [solve_gall|].
  destruct (size_exists (E 0)) as [b Hb]; [solve_gall|].
  exists (a + b). split; [eapply size_mono; [|exact Ha]; lia|]. intros d. eapply size_mono; [|exact Hb]. lia.
Qed.
Lemma yaml_depth : bounded_depth E top.
Proof using.
  exists 1. assert (L : forall d, left_depth E 0 (E d)) by (intros d d' H; exact (yaml_no_lcall d d' H)).
  split; [intros d _; apply L|]. intros d. apply left_mono, L.
Qed.

(** *** Theorems *)
Lemma yloads_det n m src u u' : yloads space n src = Ret u -> yloads space m src = Ret u' -> u = u'.
Proof using.
  unfold yloads, scannerless_parse. intros H H'.
  destruct (parse E n top src false _ _ _) as [r|e|] eqn:Q; cbn in H; try discriminate.
  destruct (parse E m top src false _ _ _) as [r'|e'|] eqn:Q'; cbn in H'; try discriminate.
  rewrite (parse_det _ _ _ _ _ _ _ _ _ _ _ _ _ _ Q Q') in H. congruence.
Qed.

(** [loads] returns exactly the values of documents: the letters, digits... of
    keys and values, the blanks, line ends and the nesting by columns *)
Theorem C67_text : (forall c, letter c -> space c = false) -> forall src v,
  (exists n, yloads space n src = Ret (Returns v)) <-> means space src v.
Proof using.
  intros Hsp src v. rewrite <- (yaml_peg space Hsp src v).
  destruct (C03_plain_parse_is_peg char yaml_V E _ top src 5 scannerless_get_loc linecol_fmt (true_loc src)
    yaml_wf_E yaml_wf (scannerless_cohere src) (yaml_lay src)) as (K & _ & _). rewrite <- K. clear K.
  unfold yloads, scannerless_parse. split.
  - intros [n H]. destruct (parse E n top src false _ _ _) as [r|e|] eqn:Q; cbn in H; try discriminate.
    exists n, r. split; [exact Q|congruence].
  - intros (n & r & Q & H). exists n. rewrite Q. cbn. congruence.
Qed.
(** a text has at most one value *)
Theorem C67_one_value : (forall c, letter c -> space c = false) -> forall src v v',
  means space src v -> means space src v' -> v = v'.
Proof using.
  intros Hsp src v v' H H'. apply (C67_text Hsp) in H as [n H], H' as [n' H']. pose proof (yloads_det _ _ _ _ _ H H'). congruence.
Qed.
(** any other text is answered by one error, reported at a place up to which
    the text is the beginning of a document *)
Theorem C67_total : (forall c, letter c -> space c = false) -> space 10%N = true -> space 32%N = true -> forall src,
  (exists v, means space src v /\ exists n, yloads space n src = Ret (Returns v)) \/
  (exists e p rest v', (forall v, ~ means space src v) /\ (exists n, yloads space n src = Ret (Raises [e])) /\
    ei_op e = None /\ p <= List.length src /\ ei_loc e = true_loc src p /\ means space (firstn p src ++ rest) v').
Proof using.
  intros Hsp Hnl Hbl src.
  destruct (C39_total char yaml_V E _ top src false 5 scannerless_get_loc linecol_fmt yaml_wf_E yaml_wf yaml_quiet yaml_guarded ltac:(lia))
    as (n & r & H).
  assert (Y : yloads space n src = Ret (unwrap r false)) by (unfold yloads, scannerless_parse; rewrite H; reflexivity).
  destruct (unwrap r false) as [v|errs] eqn:U.
  - left. exists v. split; [apply C67_text; eauto|eauto].
  - right. destruct (C43_plain_diagnostics char yaml_V E _ top src 5 scannerless_get_loc linecol_fmt (true_loc src) false
      yaml_wf_E yaml_wf (scannerless_cohere src) (yaml_lay src)) as (_ & K & _).
    destruct (proj1 (K errs)) as (b & l & X & D & ->); [eauto|].
    destruct (yaml_lost space Hnl Hbl src b l X D) as (p & u & v' & Hp & -> & M).
    eexists. exists p, u, v'. split; [|split; [eauto|split; [reflexivity|split; [exact Hp|split; [reflexivity|exact M]]]]].
    intros v M'. apply (C67_text Hsp) in M' as [m M']. pose proof (yloads_det _ _ _ _ _ M' Y). discriminate.
Qed.
(** the number of parser calls, and how deep they nest, are linear in the length of the text *)
Theorem C67_linear : exists k, forall src n,
  fst (parse_counted E n top src scannerless_get_loc linecol_fmt) <= k * (List.length src + 1) /\
  fst (parse_nested E n top src scannerless_get_loc linecol_fmt) <= k * (List.length src + 1).
Proof using.
  pose proof yaml_no_attempt as [N1 N2].
  pose proof (C57_linear char yaml_V E yaml top yaml_wf_E yaml_wf N1 N2 yaml_size yaml_depth) as [k1 H1].
  pose proof (C60_linear char yaml_V E yaml top yaml_wf_E yaml_wf yaml_size yaml_depth) as [k2 H2].
  exists (k1 + k2). intros src n. specialize (H1 src scannerless_get_loc linecol_fmt n). specialize (H2 src scannerless_get_loc linecol_fmt n). nia.
Qed.
End P.
Print Assumptions C67_text.
Print Assumptions C67_one_value.
Print Assumptions C67_total.
Print Assumptions C67_linear.

(** *** Concrete cases *)
(** the characters that Python's [\s] matches in a str *)
Definition py_space (c : char) : bool :=
  (in_range 9 13 c || in_range 28 32 c || in_range 8192 8202 c ||
   existsb (N.eqb c) [133; 160; 5760; 8232; 8233; 8239; 8287; 12288])%N.
Example C67_case_space : (forall c, letter c -> py_space c = false) /\ py_space 10%N = true /\ py_space 32%N = true.
Proof.
  split; [|split; reflexivity]. intros c H. unfold letter in H. unfold py_space, in_range. unfold char in *. cbn [existsb].
  repeat match goal with
    | |- context [N.leb ?a ?b] => destruct (N.leb_spec a b); cbn [andb orb]
    | |- context [N.eqb ?a ?b] => destruct (N.eqb_spec a b); cbn [orb]
    end; try reflexivity; exfalso; lia.
Qed.
Local Open Scope string_scope.
Definition y_src (lines : list string) : list char := ascii_chars (String.concat (String (ascii_of_N 10) "") lines).
Definition y_load (lines : list string) : option (unwrapped yaml) :=
  match yloads py_space 300 (y_src lines) with Ret u => Some u | _ => None end.
Definition y_str (x : string) : yaml := YStr (ascii_chars x).
Definition y_dict (l : list (string * yaml)) : yaml := YDict (map (fun kv => (ascii_chars (fst kv), snd kv)) l).
(** tests/test_yamlish.py *)
Example yamlish_positive :
  map y_load [["key: value"]; [""; "foo: bar"; "baz: qux"; ""]; [""; "foo:"; "    bar: baz"; "    qux: quux"; "  "];
    [""; "foo:"; "    bar: baz"; "qux: quux"; ""]] =
  map (fun v => Some (Returns v))
  [y_dict [("key", y_str "value")];
   y_dict [("foo", y_str "bar"); ("baz", y_str "qux")];
   y_dict [("foo", y_dict [("bar", y_str "baz"); ("qux", y_str "quux")])];
   y_dict [("foo", y_dict [("bar", y_str "baz")]); ("qux", y_str "quux")]].
Proof. vm_compute. reflexivity. Qed.
Definition y_error (lines : list string) : option string :=
  match y_load lines with Some (Raises l) => Some (parse_error_str l) | _ => None end.
(** some errors: a value missing, a wrong indentation, a column too far to the
    right, a document that does not begin in the first column, blanks after a
    value *)
Example yamlish_negative :
  map y_error [["foo"]; ["foo:"; "  bar: baz"]; ["foo: bar"; "  baz: qux"]; [" foo: bar"]; ["foo: bar "; ""]] =
  map Some ["at 1:4: unexpected input"; "at 2:3: expected indentation"; "at 2:3: expected indentation or end of file";
    "at 1:2: expected indentation or end of file"; "at 1:9: expected end of file"].
Proof. vm_compute. reflexivity. Qed.
Example C67_case : exists v, means py_space (y_src [""; "foo:"; "    bar: baz"; "qux: quux"; ""]) v /\
  v = y_dict [("foo", y_dict [("bar", y_str "baz")]); ("qux", y_str "quux")].
Proof.
  eexists. split; [|reflexivity]. apply C67_text; [apply C67_case_space|]. exists 300%nat. vm_compute. reflexivity.
Qed.
