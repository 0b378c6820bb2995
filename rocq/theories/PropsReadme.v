(** Property C63: the arithmetic parser of README.md (tests/parsers/expr.py) *)
From Verif Require Import Readme ReadmeSpec ReadmeProofs ReadmeLL Fuel Locations ApiProofs LL LangInv CostSpec CostFull
  PropsCost Depth DepthFull PropsDepth DiagProofs PropsDiag PropsRecovery PropsTotal PropsFirst FirstSpec PropsLL PropsJson Examples.
From Coq Require Import Lia.

Section P.
Variable space digit : char -> bool.
Variable dval : char -> Z.
Hypothesis cs : charset space digit.
Notation E := (expr_E space digit dval).
Notation is_sum := (is_sum space digit dval).
Notation top := expr_parser.

(** It always finishes, and returns exactly the values of expressions. *)
Theorem C63_decides : forall src rec,
  exists n r, scannerless_parse E n top src rec = Ret r /\
    forall v, unwrap r false = Returns v <-> is_sum src v.
Proof using cs.
  intros src rec.
  destruct (C47_ll1_decides char expr_V E Z expr src rec 5 scannerless_get_loc linecol_fmt (true_loc src)
    (expr_wf_E _ _ _) expr_wf (scannerless_cohere src) (or_introl (scannerless_exact src)) (expr_completable _ _ _ cs)
    (expr_LL1 _ _ _ cs) (expr_quiet _ _ _) (expr_guarded _ _ _) ltac:(lia)) as (n & r & H & K).
  exists n, r. split; [exact H|]. intros v. rewrite K. apply expr_sentence.
Qed.
Theorem C63_eval : forall src v,
  (exists n, eval space digit dval n src = Ret (Returns v)) <-> is_sum src v.
Proof using cs.
  intros src v. destruct (C63_decides src false) as (n & r & H & K). unfold eval. split.
  - intros (n' & H'). destruct (scannerless_parse E n' top src false) as [r'| |] eqn:Q; try discriminate.
    cbn in H'. injection H' as H'. apply K.
    assert (P : scannerless_parse E n' top src false = scannerless_parse E n top src false).
    { apply parse_agree; intros P; [discriminate (eq_trans (eq_sym Q) P)|discriminate (eq_trans (eq_sym H) P)]. }
    congruence.
  - intros Hs. exists n. rewrite H. cbn. f_equal. apply K. exact Hs.
Qed.
(** An expression has one value. *)
Theorem C63_one_value : forall src v v', is_sum src v -> is_sum src v' -> v = v'.
Proof using cs.
  intros src v v' H H'. destruct (C63_decides src false) as (n & r & _ & K). apply K in H, H'. congruence.
Qed.
(** The reported position is exact: the text before it can be continued to an
    expression, and with the character there it cannot; an error at the end means
    that the text is not an expression. *)
Theorem C63_position : forall src n r b errs,
  scannerless_parse E n top src false = Ret r -> unwrap r b = Raises errs ->
  exists p e, errs = [e] /\ ei_loc e = true_loc src p /\ p <= List.length src /\
    (exists rest v, is_sum (firstn p src ++ rest) v) /\
    (p < List.length src -> forall rest v, ~ is_sum (firstn (p + 1) src ++ rest) v) /\
    (p = List.length src -> forall v, ~ is_sum src v).
Proof using cs.
  intros src n r b errs H Hu.
  destruct (C49_exact_position char expr_V E n Z expr src 5 scannerless_get_loc linecol_fmt (true_loc src) r b errs
    (expr_wf_E _ _ _) expr_wf (scannerless_cohere src) (or_introl (scannerless_exact src)) (expr_completable _ _ _ cs)
    (an_expr _ _ _ cs) (expr_LL1 _ _ _ cs) (expr_next_token _ _ _) (expr_layout_free _ _ _) H Hu)
    as (p & e & H1 & H2 & H3 & (w & v & H4) & H5 & H6).
  exists p, e. repeat (split; [assumption|]). split; [exists w, v; apply expr_sentence, H4|]. split.
  - intros Hp rest u Hs. apply (H5 Hp). exists rest, u. apply expr_sentence, Hs.
  - intros Hp u Hs. apply (H6 Hp u). apply expr_sentence, Hs.
Qed.
(** So is that of the first error with recovery. *)
Theorem C63_first_position : forall src mi n r errs,
  parse E n top src true mi scannerless_get_loc linecol_fmt = Ret r -> unwrap r false = Raises errs ->
  exists p e tl, errs = e :: tl /\ ei_loc e = true_loc src p /\ p <= List.length src /\
    (exists rest v, is_sum (firstn p src ++ rest) v) /\
    (p < List.length src -> forall rest v, ~ is_sum (firstn (p + 1) src ++ rest) v) /\
    (p = List.length src -> forall v, ~ is_sum src v).
Proof using cs.
  intros src mi n r errs H Hu.
  destruct (C49_exact_position_recovering char expr_V E n Z expr src mi scannerless_get_loc linecol_fmt (true_loc src) r errs
    (expr_wf_E _ _ _) expr_wf (scannerless_cohere src) (or_introl (scannerless_exact src)) (expr_completable _ _ _ cs)
    (an_expr _ _ _ cs) (expr_LL1 _ _ _ cs) (expr_next_token _ _ _) (expr_layout_free _ _ _) (expr_single_withs _ _ _) H Hu)
    as (p & e & tl & H1 & H2 & H3 & (w & v & H4) & H5 & H6).
  exists p, e, tl. repeat (split; [assumption|]). split; [exists w, v; apply expr_sentence, H4|]. split.
  - intros Hp rest u Hs. apply (H5 Hp). exists rest, u. apply expr_sentence, Hs.
  - intros Hp u Hs. apply (H6 Hp u). apply expr_sentence, Hs.
Qed.
(** A recovered value is the value of the expression that one gets by applying
    the reported operations. *)
Theorem C63_repair : forall src mi n r v errs,
  parse E n top src true mi scannerless_get_loc linecol_fmt = Ret r ->
  unwrap r true = Returns v -> unwrap r false = Raises errs ->
  exists es src', edits_in es = src /\ edits_out es = map inl src' /\
    Forall2 (reports (true_loc src) linecol_fmt) errs (edits_ops 0 es) /\ is_sum src' v.
Proof using cs.
  intros src mi n r v errs H Hv He.
  destruct (C48_token_repairs_accepted char expr_V E n Z expr src mi scannerless_get_loc linecol_fmt (true_loc src) r v errs
    (expr_wf_E _ _ _) expr_wf (scannerless_cohere src) (or_introl (scannerless_exact src)) (expr_completable _ _ _ cs)
    (expr_LL1 _ _ _ cs) (expr_quiet _ _ _) (expr_guarded _ _ _) (expr_with_free _ _ _) H Hv He) as (es & t & H1 & H2 & H3 & H4).
  exists es, t. repeat (split; [assumption|]). destruct (H4 false 5%Z linecol_fmt ltac:(lia)) as (n' & r' & H5 & H6).
  apply (expr_sentence space digit dval).
  eapply C47_ll1_accepts_the_language in H5; [apply H5; exact H6|apply expr_wf_E|apply expr_wf|apply default_cohere|
    left; apply default_exact|apply expr_completable; exact cs|apply expr_LL1; exact cs].
Qed.
(** Calls and their depth are linear in the length of the text. *)
Theorem C63_linear : exists k, forall src n,
  fst (parse_counted E n top src scannerless_get_loc linecol_fmt) <= k * (List.length src + 1) /\
  fst (parse_nested E n top src scannerless_get_loc linecol_fmt) <= k * (List.length src + 1).
Proof using.
  pose proof (expr_no_attempt space digit dval) as [N1 N2].
  pose proof (C57_linear char expr_V E Z top (expr_wf_E _ _ _) (wf_eof _ _ expr_wf) N1 N2
    (expr_size _ _ _) (expr_depth _ _ _)) as [k1 H1].
  pose proof (C60_linear char expr_V E Z top (expr_wf_E _ _ _) (wf_eof _ _ expr_wf)
    (expr_size _ _ _) (expr_depth _ _ _)) as [k2 H2].
  exists (k1 + k2). intros src n. specialize (H1 src scannerless_get_loc linecol_fmt n). specialize (H2 src scannerless_get_loc linecol_fmt n). nia.
Qed.
End P.

(** The ASCII classes qualify; the digits have their values. *)
Lemma ascii_charset : charset ascii_space ascii_digit.
Proof.
  split.
  - intros c H. unfold ascii_digit in H. apply andb_true_iff in H as [H1 H2]. apply N.leb_le in H1, H2.
    unfold ascii_space. apply orb_false_iff. split; apply andb_false_iff; right; apply N.leb_gt; lia.
  - intros c [<-|[<-|[<-|[<-|[<-|[]]]]]]; split; reflexivity.
  - exists 53%N. reflexivity.
Qed.
Definition readme_eval (src : string) : out (unwrapped Z) := eval ascii_space ascii_digit ascii_dval 400 (ex_str src).
Example C63_case : readme_eval "1 + 2 * (3 + 4)" = Ret (Returns 15%Z).
Proof. vm_compute. reflexivity. Qed.
Theorem C63_case_sum : is_sum ascii_space ascii_digit ascii_dval (ex_str "1 + 2 * (3 + 4)") 15.
Proof. apply (C63_eval _ _ _ ascii_charset).  exists 400. vm_compute. reflexivity. Qed.
(** A quirk: white space is allowed after tokens only, so not at the beginning. *)
Theorem C63_no_leading_space : forall c src v, ascii_space c = true ->
  ~ is_sum ascii_space ascii_digit ascii_dval (c :: src) v.
Proof.
  intros c src v Hc H. apply (expr_sentence ascii_space ascii_digit ascii_dval) in H. apply sent_inv in H.
  apply sum_start in H as (c' & w' & Q & H). injection Q as <- _. destruct H as [H| ->]; [|discriminate].
  rewrite (cs_digit _ _ ascii_charset c H) in Hc. discriminate.
Qed.
