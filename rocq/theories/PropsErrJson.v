(** What the errors of the JSON parser say is exactly what could stand at their place
    (C49, C52, C53 and C84 put together for JSON). *)
From Verif Require Import ReplaySpec Shut PropsReplay PropsReplayJson PropsShut PropsExp PropsLL Json JsonSpec JsonProofs JsonLL JsonPatch PropsMissJson PropsJson Lexer LL LangInv DiagProofs PropsDiag Locations.

(** the error does not depend on how locations are computed: the one reported is also the
    one reported with plain positions *)
Lemma default_error T V (E : env T V) n A (g : gram T V A) s mi get fmt locof r b errs :
  wf_env E -> wf g -> cohere get s locof -> lay_ok E g s locof -> everywhere E (completable_node E) g ->
  everywhere E next_token_node g -> everywhere E (fun B q => ~ is_layout B q) g ->
  parse E n g s false mi get fmt = Ret r -> unwrap r b = Raises errs ->
  exists p e e0 n0 r0, errs = [e] /\ ei_loc e = locof p /\ p <= List.length s /\
    parse E n0 g s false mi default_get_loc default_fmt_loc = Ret r0 /\ unwrap r0 b = Raises [e0] /\
    ei_loc e0 = default_locof p /\ ei_expected e0 = ei_expected e.
Proof.
  intros HE Hg Hco Hl Hc H1 Hnl H Hu.
  destruct (C43_plain_diagnostics T V E A g s mi get fmt locof b HE Hg Hco Hl) as (_ & D & _).
  destruct (proj1 (D errs) (ex_intro _ n (ex_intro _ r (conj H Hu)))) as (b' & l & X & HD & ->). clear D.
  apply diag_valid in HD; auto; [|lia]. destruct HD as (p & -> & K1 & _ & _ & K4).
  destruct K4 as [_ K4]; [split; [exact H1|exact Hnl]|]. specialize (K4 s default_locof (fun k _ => eq_refl)).
  destruct (C43_plain_diagnostics T V E A g s mi default_get_loc default_fmt_loc default_locof b HE Hg (default_cohere s)
    (or_introl (default_exact s))) as (_ & D & _).
  destruct (proj2 (D _) (ex_intro _ _ (ex_intro _ _ (ex_intro _ _ (conj K4 eq_refl))))) as (n0 & r0 & P1 & P2).
  exists p. do 2 eexists. exists n0, r0. split; [reflexivity|]. split; [reflexivity|]. split; [lia|].
  split; [exact P1|]. split; [exact P2|]. split; reflexivity.
Qed.

Section J.
Context {F : Type}.
Variable unescape : list char -> list char.
Variable int_of : list char -> Z.
Variable float_of : list char -> F.
Notation E := (json_E unescape int_of float_of).
Notation value := (jvalue (F := F)).
Notation is_json := (is_json unescape int_of float_of).
(** every token a name stands for is the first one of some text of the part called so *)
Definition names_start B (q : gram token json_V B) : Prop :=
  forall l t, called B q l -> json_named [l] t -> first E q t.
Lemma named_value t : json_named ["value"%string] t -> starts_value t.
Proof.
  intros [[_ H]|[[[H|[]] _]|[[[H|[]] _]|[(k & [H|[]] & K & _)|(a & [H|[]] & _)]]]]; try discriminate; auto.
  subst k. cbn in K. intuition discriminate.
Qed.
Lemma named_object t : json_named ["object"%string] t -> is_punct "{" t.
Proof.
  intros [[[H|[]] _]|[[_ H]|[[[H|[]] _]|[(k & [H|[]] & K & _)|(a & [H|[]] & _)]]]]; try discriminate; auto.
  subst k. cbn in K. intuition discriminate.
Qed.
Lemma named_list t : json_named ["list"%string] t -> is_punct "[" t.
Proof.
  intros [[[H|[]] _]|[[[H|[]] _]|[[_ H]|[(k & [H|[]] & K & _)|(a & [H|[]] & _)]]]]; try discriminate; auto.
  subst k. cbn in K. intuition discriminate.
Qed.
Lemma named_kind k t : In k ["integer"; "float"; "bool"; "null"; "string"]%string -> json_named [k] t -> is_kind k t.
Proof.
  intros Hk [[[H|[]] _]|[[[H|[]] _]|[[[H|[]] _]|[(k' & [H|[]] & K & Q)|(a & [H|[]] & _)]]]]; subst k; try (cbn in Hk; intuition discriminate).
Qed.
Lemma named_punct a t : json_named [("'" ++ String a "" ++ "'")%string] t -> is_punct a t.
Proof.
  intros [[[H|[]] _]|[[[H|[]] _]|[[[H|[]] _]|[(k & [H|[]] & K & _)|(b & [H|[]] & Q)]]]]; try discriminate.
  - subst k. cbn in K. intuition discriminate.
  - injection H as <-. exact Q.
Qed.
Lemma starts_sentence t : starts_value t -> exists w v, sentence E value (t :: w) v.
Proof.
  assert (Sc : forall v, is_scalar unescape int_of float_of t v -> exists w v, sentence E value (t :: w) v).
  { intros v H. exists [], v. apply json_sentence. apply json_scalar. exact H. }
  intros [H|[H|[H|[H|[H|[H|H]]]]]].
  - eapply Sc. apply is_int. exact H.
  - eapply Sc. apply is_float. exact H.
  - destruct (list_eq_dec N.eq_dec (tk_value t) (ascii_chars "true")); eapply Sc; [apply is_true|apply is_false]; auto.
  - eapply Sc. apply is_null. exact H.
  - eapply Sc. apply is_str. exact H.
  - exists [ptok "}"]. eexists. apply json_sentence. apply json_dict_empty; [exact H|split; reflexivity].
  - exists [ptok "]"]. eexists. apply json_sentence. apply json_list_empty; [exact H|split; reflexivity].
Qed.
Lemma json_names_start : everywhere E names_start value.
Proof.
  apply everywhere_gall; [intros d|]; solve_gall; intros l t Hc Hl; cbn [called] in Hc; try contradiction; subst l.
  all: lazymatch goal with
    | |- first _ (GLabel _ "value") _ =>
        destruct (starts_sentence t (named_value t Hl)) as (w & v & Q); exists w, v; apply sent_inv in Q; exact Q
    | |- first _ (GLabel _ "object") _ => apply named_object in Hl
    | |- first _ (GLabel _ "list") _ => apply named_list in Hl
    | |- first _ (GLabel _ ?k) _ => apply named_kind in Hl; [|cbn; tauto]; exists [], t; exact (sent_token unescape int_of float_of k t Hl)
    | |- first _ (GSym _ (Token _ (ascii_chars (String ?a _)) _ _) _) _ =>
        apply (named_punct a) in Hl; exists [], t; exact (sent_punct unescape int_of float_of a t Hl)
    end.
  - exists [ptok "}"], (JDict (dict_of [])). apply la_label.
    refine (sent_between unescape int_of float_of _ _ _ _ "{" "}" t [] [] _ _ Hl _ (sent_sepby_nil unescape int_of float_of _ _ ",") eq_refl).
    split; reflexivity.
  - exists [ptok "]"], (JList []). apply la_label.
    refine (sent_between unescape int_of float_of _ _ _ _ "[" "]" t [] [] _ _ Hl _ (sent_sepby_nil unescape int_of float_of _ _ ",") eq_refl).
    split; reflexivity.
Qed.
(** every name stands for some token *)
Definition names_mean B (q : gram token (json_V (F := F)) B) : Prop := forall l, called B q l -> exists t, json_named [l] t.
Lemma punct_named a : exists t, json_named [("'" ++ String a "" ++ "'")%string] t.
Proof. exists (ptok a). do 4 right. exists a. split; [left; reflexivity|split; reflexivity]. Qed.
Lemma json_names_mean : everywhere E names_mean value.
Proof.
  apply everywhere_gall; [intros d|]; solve_gall; intros l Hc; cbn [called] in Hc; try contradiction; subst l.
  all: first
    [ exact (punct_named "{") | exact (punct_named "}") | exact (punct_named "[") | exact (punct_named "]")
    | exact (punct_named ":") | exact (punct_named ",")
    | lazymatch goal with
      | |- exists t, json_named ["value"%string] t => exists (ptok "{"); left; split; [left; auto|]; do 5 right; left; split; reflexivity
      | |- exists t, json_named ["object"%string] t => exists (ptok "{"); right; left; split; [left; auto|split; reflexivity]
      | |- exists t, json_named ["list"%string] t => exists (ptok "["); right; right; left; split; [left; auto|split; reflexivity]
      | |- exists t, json_named [?k] t =>
          exists (tok k); right; right; right; left; exists k; split; [left; auto|split; [cbn; tauto|reflexivity]]
      end ].
Qed.
Lemma json_named_one X t : json_named X t <-> exists l, In l X /\ json_named [l] t.
Proof.
  split.
  - intros [[H1 H2]|[[H1 H2]|[[H1 H2]|[(k & H1 & H2 & H3)|(a & H1 & H2)]]]].
    + eexists. split; [exact H1|]. left. split; [left; auto|auto].
    + eexists. split; [exact H1|]. right; left. split; [left; auto|auto].
    + eexists. split; [exact H1|]. right; right; left. split; [left; auto|auto].
    + exists k. split; [exact H1|]. do 3 right; left. exists k. split; [left; auto|auto].
    + eexists. split; [exact H1|]. do 4 right. exists a. split; [left; auto|auto].
  - intros (l & Hl & [[[H1|[]] H2]|[[[H1|[]] H2]|[[[H1|[]] H2]|[(k & [H1|[]] & H2 & H3)|(a & [H1|[]] & H2)]]]]); subst l.
    + left. auto.
    + right; left. auto.
    + right; right; left. auto.
    + do 3 right; left. exists k. auto.
    + do 4 right. exists a. auto.
Qed.

(** What the names [X] say about what can come after [w]: a token is one they stand for iff
    some text goes on with it; the end of the text is named iff [w] is complete; and every
    name stands for something. *)
Definition says_next (w : list token) (X : list string) : Prop :=
  (forall t, json_named X t <-> exists rest v, is_json (w ++ t :: rest) v) /\
  (In "end of file"%string X <-> exists v, is_json w v) /\
  (forall l, In l X -> l = "end of file"%string \/ exists t, json_named [l] t).

Lemma says_default toks n mi r b errs :
  parse E n (seql value GEof) toks false mi default_get_loc default_fmt_loc = Ret r -> unwrap r b = Raises errs ->
  exists p e, errs = [e] /\ ei_loc e = default_locof p /\ p <= List.length toks /\
    (exists rest v, is_json (firstn p toks ++ rest) v) /\
    (p < List.length toks -> ~ exists rest v, is_json (firstn (p + 1) toks ++ rest) v) /\
    (p = List.length toks -> ~ exists v, is_json toks v) /\
    says_next (firstn p toks) (ei_expected e).
Proof.
  intros H Hu. destruct (json_shut unescape int_of float_of) as [Z1 Z2].
  pose proof (json_wf_E unescape int_of float_of) as W1. pose proof (json_completable unescape int_of float_of) as W2.
  assert (Hl : lay_ok E value toks default_locof) by (left; apply default_exact).
  destruct (C53_closed_items _ _ E n _ value toks mi _ _ default_locof r b errs (fun _ => True) W1 json_wf
    (default_cohere toks) Hl W2 (json_LL1 _ _ _) (json_quiet _ _ _) (json_guarded _ _ _)
    (json_one_token _ _ _) (json_layout_free _ _ _) (json_labelled _ _ _) (fun K => K) (json_no_bind _ _ _) Z1 (fun d _ => Z2 d) H Hu)
    as (p & e & K1 & K2 & K3 & K4 & K5).
  assert (Lp : forall p1 p2, default_locof p1 = default_locof p2 -> p1 = p2).
  { intros p1 p2 Q. unfold default_locof in Q. injection Q. lia. }
  assert (N1 : everywhere E next_token_node value).
  { apply one_next. apply json_one_token. }
  destruct (C49_exact_position _ _ E n _ value toks mi _ _ default_locof r b errs W1 json_wf (default_cohere toks) Hl W2
    (ex_intro _ _ (ex_intro _ _ (value_tok unescape int_of float_of))) (json_LL1 _ _ _) N1 (json_layout_free _ _ _) H Hu)
    as (p1 & e1 & M1 & M2 & M3 & M4 & M5 & M6).
  rewrite K1 in M1. injection M1 as <-. assert (p1 = p) as -> by (apply Lp; congruence).
  assert (He : wf_env E /\ wf (seql value GEof)) by (split; [exact W1|apply wf_eof; apply json_wf]). destruct He as [_ He].
  assert (Ha : attempt_free E (seql value GEof)).
  { apply ev_eof; simpl; try tauto. intros B q Ho Hq. pose proof (json_attempt_free unescape int_of float_of B q Ho) as Q. destruct q; simpl in *; tauto. }
  destruct (C52_expected_right _ _ E n _ (seql value GEof) toks mi _ _ default_locof r b errs W1 He (default_cohere toks) (lay_eof _ _ _ _ _ Hl)
    (completable_eof _ _ _ W2) Ha H Hu) as (p2 & e2 & O1 & O2 & O3 & O4).
  rewrite K1 in O1. injection O1 as <-. assert (p2 = p) as -> by (apply Lp; congruence).
  assert (Sm : forall w v, sentence E value w v <-> is_json w v) by (intros; apply json_sentence).
  assert (Hun : ~ uses_name E value "end of file").
  { intros (B & q & Ho & Hq). assert (Q : everywhere E (fun B q => ~ called B q "end of file") value).
    { apply everywhere_gall; [intros d|]; solve_gall; intros Q; cbn [called] in Q; try contradiction; discriminate Q. }
    exact (Q B q Ho Hq). }
  destruct (C52_end_of_file _ _ E n _ value toks mi _ _ default_locof r b errs W1 json_wf (default_cohere toks) Hl W2
    (json_attempt_free _ _ _) Hun H Hu) as (p3 & e3 & R1 & R2 & R3 & R4).
  rewrite K1 in R1. injection R1 as <-. assert (p3 = p) as -> by (apply Lp; congruence).
  exists p, e. split; [exact K1|]. split; [exact K2|]. split; [exact K3|]. split; [|split; [|split; [|split; [|split]]]].
  - destruct M4 as (rest & v & Q). exists rest, v. apply Sm. exact Q.
  - intros Hp (rest & v & Q). apply (M5 Hp). exists rest, v. apply Sm. exact Q.
  - intros Hp (v & Q). apply (M6 Hp v). apply Sm. exact Q.
  - intros t. split.
    + intros Ht. apply json_named_one in Ht as (l & Hl0 & Ht). destruct (O4 l Hl0) as (B & q & P1 & P2 & P3).
      assert (Q : everywhere E names_start (seql value GEof)).
      { apply (ev_eof E names_start); [intros l0 t0 []| |exact json_names_start].
        intros l0 t0 Q0 Q1. cbn in Q0. subst l0. exfalso.
        destruct Q1 as [[[Q|[]] _]|[[[Q|[]] _]|[[[Q|[]] _]|[(k & [Q|[]] & Q2 & _)|(a & [Q|[]] & _)]]]]; try discriminate.
        subst k. cbn in Q2. intuition discriminate. }
      destruct (Q B q P1 l t P2 Ht) as (w & u & Hs). specialize (P3 _ _ Hs). apply (proj1 (viable_eof _ _ _ _)) in P3.
      destruct P3 as (w' & v & Hw). exists (w ++ w'), v. apply Sm. rewrite <- app_assoc in Hw. exact Hw.
    + intros (rest & v & Q). revert Q. apply json_viable. exact K4.
  - split; [intros Q; destruct (R4 Q) as (v & Q1); exists v; apply Sm; exact Q1|].
    intros (v & Hj). refine (K5 _ v _); [apply everywhere_gall; [intros d|]; solve_gall|]. apply json_sentence. exact Hj.
  - intros l Hl0. destruct (O4 l Hl0) as (B & q & P1 & P2 & _).
    assert (Q : everywhere E (fun B q => called B q l -> l = "end of file"%string \/ exists t, json_named [l] t) (seql value GEof)).
    { apply (ev_eof E (fun B q => called B q l -> l = "end of file"%string \/ exists t, json_named [l] t)); [intros []|left; auto|].
      intros B0 q0 Ho Hq. right. exact (json_names_mean B0 q0 Ho l Hq). }
    exact (Q B q P1 P2).
Qed.

(** The error [loads] raises for a token sequence says exactly what could stand at its
    place: the text before it is the beginning of a JSON text, the token at it is not a
    possible next one, and the names given are right and complete. *)
Theorem C53_json_exact : forall toks n r b errs,
  lexer_parse E n (json_parser (F := F)) toks false = Ret r -> unwrap r b = Raises errs ->
  exists p e, errs = [e] /\ ei_loc e = loc_from_stream toks p /\ p <= List.length toks /\
    (exists rest v, is_json (firstn p toks ++ rest) v) /\
    (p < List.length toks -> ~ exists rest v, is_json (firstn (p + 1) toks ++ rest) v) /\
    (p = List.length toks -> ~ exists v, is_json toks v) /\
    says_next (firstn p toks) (ei_expected e).
Proof.
  intros toks n r b errs H Hu.
  assert (N1 : everywhere E next_token_node value).
  { apply one_next. apply json_one_token. }
  destruct (default_error _ _ E n _ (seql value GEof) toks 5%Z lexer_get_loc linecol_fmt (loc_from_stream toks) r b errs (json_wf_E _ _ _) (wf_eof _ _ json_wf)
    (lexer_cohere toks) (lay_eof _ _ _ _ _ (json_lay _ _ _ _)) (completable_eof _ _ _ (json_completable _ _ _)))
    as (p & e & e0 & n0 & r0 & K1 & K2 & K3 & K4 & K5 & K6 & K7); auto.
  { apply ev_eof; [exact I|exact I|exact N1]. }
  { apply ev_eof; [intros []|intros []|apply json_layout_free]. }
  destruct (says_default toks n0 5%Z r0 b [e0] K4 K5) as (p' & e1 & M1 & M2 & M3 & M4 & M5 & M6 & M7).
  injection M1 as <-. rewrite K6 in M2. unfold default_locof in M2. assert (p' = p) as -> by (injection M2; lia).
  exists p, e. rewrite <- K7. auto 10.
Qed.
Print Assumptions C53_json_exact.

(** So does every error reported with recovery, about the text as mended so far. *)
Theorem C84_json_exact : forall fill i a toks n r errs v,
  fill "1"%string = [i] -> fill "'""a""'"%string = [a] ->
  is_kind "integer" i -> int_of (tk_value i) = 1%Z ->
  is_kind "string" a -> unescape (tk_value a) = ascii_chars "a" ->
  lexer_parse E n (json_parser (F := F)) toks true = Ret r ->
  unwrap r false = Raises errs -> unwrap r true = Returns v ->
  exists es, edits_in es = toks /\
    one_by_one E value (filling E value fill) eq toks (loc_from_stream toks) v 0 [] es errs /\
    each_error (filling E value fill) (fun w e => says_next w (ei_expected e)) [] es errs.
Proof.
  intros fill i a toks n r errs v F1 F2 H1 H2 H3 H4 H Hu Hv.
  destruct (C84_json_complete unescape int_of float_of fill i a toks n r errs v F1 F2 H1 H2 H3 H4 H Hu Hv) as (es & K1 & K2 & _).
  exists es. split; [exact K1|]. split; [exact K2|].
  assert (HQ : forall w rest e, complains E value (w ++ rest) (List.length w) (fun X => X = ei_expected e) -> says_next w (ei_expected e)).
  { intros w rest e HC.
    destruct (HC false 0%Z default_get_loc default_fmt_loc default_locof (default_cohere _)) as (n0 & r0 & e0 & P1 & P2 & P3 & P4 & P5).
    destruct (says_default _ _ _ _ _ _ P1 P2) as (p & e1 & Q1 & Q2 & Q3 & _ & _ & _ & Q).
    injection Q1 as <-. rewrite P4 in Q2. unfold default_locof in Q2. assert (p = List.length w) as -> by (injection Q2; lia).
    rewrite firstn_app, Nat.sub_diag, firstn_all, app_nil_r in Q. rewrite <- P5. exact Q. }
  clear - K2 HQ. revert K2. generalize 0. generalize (@nil token). revert errs.
  induction es as [|[t|ts|lb x] es IH]; intros errs w j K; cbn [one_by_one each_error] in *.
  - apply K.
  - destruct K as [_ K]. eapply IH. exact K.
  - destruct K as (e & errs' & K1 & _ & _ & K4 & _ & K6). exists e, errs'. split; [exact K1|]. split; [eapply HQ; exact K4|eapply IH; exact K6].
  - destruct K as (u & e & errs' & K0 & K1 & _ & _ & K4 & K5). exists u, e, errs'.
    do 2 (split; [assumption|]). split; [eapply HQ; exact K4|eapply IH; exact K5].
Qed.
Print Assumptions C84_json_exact.
End J.

(** [[{"b": , : null}}]]: the error is at the comma and names a value, so what can come
    there is exactly what can start a value, and the text cannot end there. *)
Theorem C53_exact_case : forall unescape int_of float_of (is_text := is_json (F := list char) unescape int_of float_of),
  unescape = (fun x => x) -> int_of = (fun x => Z.of_nat (List.length x)) -> float_of = (fun x => x) ->
  (forall t, starts_value t <-> exists rest v, is_text (firstn 4 ex_toks ++ t :: rest) v) /\
  ~ exists v, is_text (firstn 4 ex_toks) v.
Proof.
  intros unescape int_of float_of is_text -> -> ->. subst is_text.
  destruct (lexer_parse ex_mJ 80 json_parser ex_toks false) as [r| |] eqn:H; [|vm_compute in H; discriminate H|vm_compute in H; discriminate H].
  destruct (unwrap r false) as [v0|errs] eqn:Hu; [exfalso|].
  { revert H Hu. intros H. vm_compute in H. injection H as <-. intros Hu. vm_compute in Hu. discriminate Hu. }
  destruct (C53_json_exact (fun x => x) (fun x => Z.of_nat (List.length x)) (fun x : list char => x) ex_toks 80 r false errs H Hu)
    as (p & e & -> & K1 & K2 & _ & _ & _ & K3 & K4 & _).
  assert (Q : ei_loc e = Loc 4 0 4 /\ ei_expected e = ["value"%string]).
  { revert Hu. clear -H. vm_compute in H. injection H as <-. vm_compute. intros [= <-]. split; reflexivity. }
  destruct Q as [Q1 Q2].
  assert (p = 4) as ->.
  { rewrite Q1 in K1. change (List.length ex_toks) with 10 in K2.
    do 11 (destruct p as [|p]; [first [reflexivity|discriminate K1]|]). lia. }
  rewrite Q2 in K3, K4. split.
  - intros t. rewrite <- K3. split; [intros Q; left; split; [left; auto|exact Q]|apply named_value].
  - intros Q. apply K4 in Q. destruct Q as [Q|[]]. discriminate Q.
Qed.
