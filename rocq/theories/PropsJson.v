(** Property C61: the JSON parser of the test-suite (tests/parsers/json.py) *)
From Verif Require Import Fuel Locations Json JsonSpec JsonProofs JsonLL JsonPatch LL LangInv PatchSpec PropsPatch CostSpec CostProofs CostFull
  PropsCost PropsCostFull Depth DepthFull PropsDepth DiagProofs PropsDiag PropsRecovery PropsTotal PropsFirst FirstSpec
  PropsLL PropsFill Examples.

Lemma lex_loop_mono spec src m : forall n pos l acc r, n <= m ->
  lex_loop spec src n pos l acc = Ret r -> lex_loop spec src m pos l acc = Ret r.
Proof.
  induction m as [|m IH]; intros [|n] pos l acc r Hn H; try discriminate; [lia|]. cbn [lex_loop] in *.
  destruct (Nat.ltb pos (List.length src)); [|exact H]. destruct (spec src pos) as [[e g]|]; [|exact H].
  eapply IH; [|exact H]. lia.
Qed.

Lemma parse_mono T V (E : env T V) n m A (g : gram T V A) s rec mi get fmt r : n <= m ->
  parse E n g s rec mi get fmt = Ret r -> parse E m g s rec mi get fmt = Ret r.
Proof.
  intros Hn H.
  assert (L : lef (parse E n g s rec mi get fmt) (parse E m g s rec mi get fmt)).
  { unfold parse. destruct rec; apply lef_bind; intros;
      auto with lef; [apply full_lef; auto|unfold omap; apply lef_bind; intros;
      auto with lef; apply fast_lef; auto]. }
  destruct L as [L|L]; congruence.
Qed.

Section P.
Context {F : Type}.
Variable unescape : list char -> list char.
Variable int_of : list char -> Z.
Variable float_of : list char -> F.
Notation E := (json_E unescape int_of float_of).
Notation is_json := (is_json unescape int_of float_of).
Notation top := (json_parser (F := F)).

(** it always finishes, and returns exactly the values of JSON texts *)
Theorem C61_decides : forall toks rec,
  exists n r, lexer_parse E n top toks rec = Ret r /\
    forall v, unwrap r false = Returns v <-> is_json toks v.
Proof.
  intros toks rec.
  destruct (C47_ll1_decides token json_V E (json F) jvalue toks rec 5 lexer_get_loc linecol_fmt (loc_from_stream toks)
    (json_wf_E _ _ _) (json_wf (F := F)) (lexer_cohere toks) (json_lay _ _ _ _) (json_completable _ _ _)
    (json_LL1 _ _ _) (json_quiet _ _ _) (json_guarded _ _ _) ltac:(lia)) as (n & r & H & K).
  exists n, r. split; [exact H|]. intros v. rewrite K. apply json_sentence.
Qed.
Theorem C61_texts : forall toks rec v,
  (exists n r, lexer_parse E n top toks rec = Ret r /\ unwrap r false = Returns v) <-> is_json toks v.
Proof.
  intros toks rec v. destruct (C61_decides toks rec) as (n & r & H & K). split.
  - intros (n' & r' & H' & Hu). apply K.
    assert (P : lexer_parse E n' top toks rec = lexer_parse E n top toks rec).
    { apply parse_agree; intros P; [discriminate (eq_trans (eq_sym H') P)|discriminate (eq_trans (eq_sym H) P)]. }
    congruence.
  - intros Hs. exists n, r. split; [exact H|]. apply K. exact Hs.
Qed.
(** a text has one value *)
Theorem C61_one_value : forall toks v v', is_json toks v -> is_json toks v' -> v = v'.
Proof.
  intros toks v v' H H'. destruct (C61_decides toks false) as (n & r & _ & K). apply K in H, H'. congruence.
Qed.

(** [loads]: the values of texts that can be split into the tokens of a JSON text *)
Theorem C61_loads : forall spec src v,
  (exists n, json_loads unescape int_of float_of spec n src = Ret (Loads (Returns v))) <->
  exists n toks, split_tokens n src spec = Ret (LexOk toks) /\ is_json toks v.
Proof.
  intros spec src v. unfold json_loads. split.
  - intros (n & H). destruct (split_tokens n src spec) as [[toks|l]| |] eqn:S; try discriminate. cbn in H.
    destruct (lexer_parse E n top toks false) as [r| |] eqn:Q; try discriminate. injection H as H.
    exists n, toks. split; [exact S|]. apply (C61_texts toks false). eauto.
  - intros (n & toks & S & H). apply (C61_texts toks false) in H as (n' & r & H & Hu).
    exists (Nat.max n n').
    assert (S' : split_tokens (Nat.max n n') src spec = Ret (LexOk toks)).
    { eapply lex_loop_mono; [|exact S]. lia. }
    assert (H' : lexer_parse E (Nat.max n n') top toks false = Ret r).
    { eapply (parse_mono _ _ E n'); [lia|exact H]. }
    rewrite S'. cbn. rewrite H'. cbn. rewrite Hu. reflexivity.
Qed.

(** an error of plain parsing is at the first token at which the tokens read so
    far cannot be completed to a JSON text *)
Theorem C61_position : forall toks n r b errs,
  lexer_parse E n top toks false = Ret r -> unwrap r b = Raises errs ->
  exists p e, errs = [e] /\ ei_loc e = loc_from_stream toks p /\ p <= List.length toks /\
    (exists rest v, is_json (firstn p toks ++ rest) v) /\
    (p < List.length toks -> ~ exists rest v, is_json (firstn (p + 1) toks ++ rest) v) /\
    (p = List.length toks -> forall v, ~ is_json toks v).
Proof.
  intros toks n r b errs H Hu.
  destruct (C49_exact_position token json_V E n (json F) jvalue toks 5 lexer_get_loc linecol_fmt (loc_from_stream toks) r b errs
    (json_wf_E _ _ _) (json_wf (F := F)) (lexer_cohere toks) (json_lay _ _ _ _) (json_completable _ _ _)
    (ex_intro _ _ (ex_intro _ _ (value_tok _ _ _))) (json_LL1 _ _ _) (one_next _ _ _ _ _ (json_one_token _ _ _)) (json_layout_free _ _ _) H Hu)
    as (p & e & H1 & H2 & H3 & H4 & H5 & H6).
  exists p, e. split; [exact H1|]. split; [exact H2|]. split; [exact H3|]. split; [|split].
  - destruct H4 as (w & v & H4). exists w, v. apply json_sentence. exact H4.
  - intros Hp (w & v & Hw). apply (H5 Hp). exists w, v. apply json_sentence. exact Hw.
  - intros Hp v Hv. apply (H6 Hp v). apply json_sentence. exact Hv.
Qed.
(** with recovery the first error is at the same place *)
Theorem C61_first_position : forall toks mi n r errs,
  parse E n top toks true mi lexer_get_loc linecol_fmt = Ret r -> unwrap r false = Raises errs ->
  exists p e tl, errs = e :: tl /\ ei_loc e = loc_from_stream toks p /\ p <= List.length toks /\
    (exists rest v, is_json (firstn p toks ++ rest) v) /\
    (p < List.length toks -> ~ exists rest v, is_json (firstn (p + 1) toks ++ rest) v) /\
    (p = List.length toks -> forall v, ~ is_json toks v).
Proof.
  intros toks mi n r errs H Hu.
  destruct (C49_exact_position_recovering token json_V E n (json F) jvalue toks mi lexer_get_loc linecol_fmt (loc_from_stream toks) r errs
    (json_wf_E _ _ _) (json_wf (F := F)) (lexer_cohere toks) (json_lay _ _ _ _) (json_completable _ _ _)
    (ex_intro _ _ (ex_intro _ _ (value_tok _ _ _))) (json_LL1 _ _ _) (one_next _ _ _ _ _ (json_one_token _ _ _)) (json_layout_free _ _ _)
    (json_single_withs _ _ _) H Hu)
    as (p & e & tl & H1 & H2 & H3 & H4 & H5 & H6).
  exists p, e, tl. split; [exact H1|]. split; [exact H2|]. split; [exact H3|]. split; [|split].
  - destruct H4 as (w & v & H4). exists w, v. apply json_sentence. exact H4.
  - intros Hp (w & v & Hw). apply (H5 Hp). exists w, v. apply json_sentence. exact Hw.
  - intros Hp v Hv. apply (H6 Hp v). apply json_sentence. exact Hv.
Qed.

(** with recovery: performing the reported repairs gives a JSON text, and the
    value returned is its value.  The placeholders 1 and "a" of the parser are
    written as any tokens with these values. *)
Theorem C61_repair : forall (fill : string -> list token) one a toks mi n r v errs,
  fill "1"%string = [one] -> is_kind "integer" one -> int_of (tk_value one) = 1%Z ->
  fill "'""a""'"%string = [a] -> is_kind "string" a -> unescape (tk_value a) = ascii_chars "a" ->
  parse E n top toks true mi lexer_get_loc linecol_fmt = Ret r ->
  unwrap r true = Returns v -> unwrap r false = Raises errs ->
  exists es, edits_in es = toks /\ Forall2 (reports (loc_from_stream toks) linecol_fmt) errs (edits_ops 0 es) /\
    is_json (filled fill (edits_out es)) v.
Proof.
  intros fill one a toks mi n r v errs F1 K1 I1 F2 K2 I2 H Hv He.
  destruct (C48_filled_repair_accepted token json_V E fill n (json F) jvalue toks mi lexer_get_loc linecol_fmt
    (loc_from_stream toks) r v errs
    (json_wf_E _ _ _) (json_wf (F := F)) (lexer_cohere toks) (json_lay _ _ _ _) (json_completable _ _ _)
    (json_LL1 _ _ _) (json_quiet _ _ _) (json_guarded _ _ _)
    (json_fill _ _ _ _ _ _ F1 F2 K1 I1 K2 I2) H Hv He) as (es & H1 & H2 & _ & H3 & _).
  exists es. split; [exact H1|]. split; [exact H2|]. apply json_sentence. exact H3.
Qed.

(** with enough insertions allowed, recovery returns a value for any tokens *)
Theorem C61_always_recovers : forall toks mi, (Z.of_nat (List.length toks) + 2 <= mi)%Z ->
  exists n r v, parse E n top toks true mi lexer_get_loc linecol_fmt = Ret r /\ unwrap r true = Returns v.
Proof.
  intros toks mi Hm. eapply C51_total with (k := json_need (List.length toks)).
  - apply json_wf_E.
  - apply wf_eof, json_wf.
  - apply quiet_eof, json_quiet.
  - apply guarded_eof, json_guarded.
  - lia.
  - apply json_completes.
  - right. unfold json_need. cbn [now later]. lia.
Qed.

(** the number of parser calls, and how deep they nest, are linear in the number of tokens *)
Theorem C61_linear : exists k, forall toks n,
  fst (parse_counted E n top toks lexer_get_loc linecol_fmt) <= k * (List.length toks + 1) /\
  fst (parse_nested E n top toks lexer_get_loc linecol_fmt) <= k * (List.length toks + 1).
Proof.
  pose proof (json_no_attempt unescape int_of float_of) as [N1 N2].
  pose proof (C57_linear token json_V E (json F) top (json_wf_E _ _ _) (wf_eof _ _ (json_wf (F := F))) N1 N2
    (json_size _ _ _) (json_depth _ _ _)) as [k1 H1].
  pose proof (C60_linear token json_V E (json F) top (json_wf_E _ _ _) (wf_eof _ _ (json_wf (F := F)))
    (json_size _ _ _) (json_depth _ _ _)) as [k2 H2].
  exists (k1 + k2). intros toks n. specialize (H1 toks lexer_get_loc linecol_fmt n). specialize (H2 toks lexer_get_loc linecol_fmt n). nia.
Qed.
End P.
Print Assumptions C61_decides.
Print Assumptions C61_texts.
Print Assumptions C61_one_value.
Print Assumptions C61_loads.
Print Assumptions C61_position.
Print Assumptions C61_first_position.
Print Assumptions C61_repair.
Print Assumptions C61_always_recovers.
Print Assumptions C61_linear.
