(** C81 for the JSON parser of the test-suite: a mistyped closing bracket or colon *)
From Verif Require Import Fuel ApiSpec ApiProofs Locations Json JsonSpec JsonProofs JsonLL PropsJson LL LangInv PropsTotal FirstSpec PropsFirst PropsLL Examples
  Mend PropsMend Miss PropsMiss PropsMissJson Wrong PropsWrong.
Import ListNotations.

Section P.
Context {F : Type}.
Variable unescape : list char -> list char.
Variable int_of : list char -> Z.
Variable float_of : list char -> F.
Notation E := (json_E unescape int_of float_of).
Notation is_json := (is_json unescape int_of float_of).
Notation value := (jvalue (F := F)).
Notation top := (json_parser (F := F)).
Notation sent := (sentence E).

Lemma tok_filled A k (f : token -> out A) : ~ nullable E (GFmap (token_p k) f).
Proof. intros (v & H). apply (fmap_tok_start unescape int_of float_of) in H as (t & Q & _). discriminate. Qed.
Lemma tok_firm y A k (f : token -> out A) : firm E y (GFmap (token_p k) f).
Proof. apply firm_fmap. apply firm_label. apply firm_sat. Qed.
Lemma scalar_firm y : firm E y (jscalar unescape int_of float_of).
Proof. unfold jscalar. repeat apply firm_alt; try apply tok_firm; apply tok_filled. Qed.
Lemma punct_firm y a : firm E y (punct a).
Proof. apply firm_sym. Qed.
Lemma value_firm y : firm E y value.
Proof.
  apply (firm_delay E y 0). unfold json_E. apply firm_label. apply firm_alt; [apply firm_alt| |].
  - apply firm_with, scalar_firm.
  - apply firm_recover. apply firm_label. apply firm_seq; [apply punct_firm|]. intros (v & H). apply punct_sent in H as [H _]. discriminate.
  - intros (v & H). apply sent_inv in H. apply (dict_start unescape int_of float_of) in H as (t & w & Q & _). discriminate.
  - apply firm_recover. apply firm_label. apply firm_seq; [apply punct_firm|]. intros (v & H). apply punct_sent in H as [H _]. discriminate.
  - intros (v & H). apply sent_inv in H. apply (list_start unescape int_of float_of) in H as (t & w & Q & _). discriminate.
Qed.
Lemma member_firm y : firm E y (jmember unescape (F := F)).
Proof.
  unfold jmember. apply firm_seq; [|intros _; apply value_firm]. apply firm_seq; [|intros _; apply punct_firm].
  apply firm_with, tok_firm.
Qed.
Lemma item_not_first y A (p : gram token json_V A) : ~ is_punct "," y -> ~ first E (seqr (punct ",") p) y.
Proof. intros N (w & v & H). apply (item_start unescape int_of float_of) in H as (t & w' & Q & H). injection Q as <- _. exact (N H). Qed.
Lemma items_firm y A (p : gram token json_V A) : ~ is_punct "," y -> firm E y (GMany (seqr (punct ",") p)).
Proof.
  intros N. apply firm_none. intros (w & v & H). apply sent_inv in H as [[Q _]|(w1 & w2 & v1 & v2 & Q & _ & H & _)]; [discriminate|].
  apply (item_start unescape int_of float_of) in H as (t & w' & -> & H). injection Q as <- _. exact (N H).
Qed.
Lemma ends_punct a b x : is_punct b x -> ends E (punct (String a "")) x -> a = b.
Proof.
  intros P (w & v & H). apply punct_sent in H as [Q H]. change [v] with ([] ++ [v]) in Q. apply app_inj_tail in Q as [_ <-]. exact (punct_is _ _ _ H P).
Qed.
Lemma json_firm a x y : joiner a -> is_punct a x -> ~ is_punct "," y -> everywhere E (firm_after_node E y x) value.
Proof.
  intros J P N.
  apply everywhere_gall; [intros d|]; solve_gall; intros.
  all: try apply punct_firm; try apply value_firm; try apply member_firm; try (apply items_firm; exact N); try (apply item_not_first; exact N).
  all: match goal with H : ends _ _ _ |- _ => apply (ends_punct _ a x P) in H; subst a end; exfalso; unfold joiner in J; intuition discriminate.
Qed.

(** ** A closing bracket or colon is mistyped *)
Theorem C81_json : forall toks s1 t z s2 v mi n r,
  toks = s1 ++ z :: s2 -> is_punct "]" t \/ is_punct "}" t \/ is_punct ":" t ->
  is_json (s1 ++ t :: s2) v ->
  (forall y s3, s2 = y :: s3 -> ~ is_punct "," y) ->
  (~ exists rest u, is_json (s1 ++ z :: rest) u) ->
  (~ exists rest u, is_json (s1 ++ t :: z :: rest) u) ->
  mi <> 0%Z -> parse E n top toks true mi lexer_get_loc linecol_fmt = Ret r ->
  exists e errs ops w, unwrap r false = Raises (e :: errs) /\ unwrap r true = Returns w /\
    ei_loc e = loc_from_stream toks (List.length s1) /\
    Forall2 (fun e o => ei_op e = Some o) (e :: errs) ops /\ ops_cost ops <= 2.
Proof.
  intros toks s1 t z s2 v mi n r -> Ht Hv Hy Hn Hn2 Hm H.
  assert (exists a, joiner a /\ same_token t (ptok a)) as (a & J & S1).
  { unfold joiner. destruct Ht as [Ht|[Ht|Ht]]; apply is_ptok in Ht; eexists; (split; [|exact Ht]); auto. }
  apply (json_swap _ _ _ _ _ _ _ _ S1) in Hv. apply json_sentence in Hv.
  refine (C81_wrong token json_V E n _ value s1 (ptok a) z s2 v mi lexer_get_loc linecol_fmt (loc_from_stream (s1 ++ z :: s2)) r
    (json_wf_E _ _ _) (json_wf (F := F)) (lexer_cohere _) (json_lay _ _ _ _) (json_completable _ _ _) (json_LL1 _ _ _) (json_quiet _ _ _)
    (json_guarded _ _ _) (json_one_token _ _ _) (json_layout_free _ _ _) (json_eof_free _ _ _) (json_single_withs _ _ _) (json_apart _ _ _ a _ J (ptok_self a))
    (json_insertable _ _ _ a) _ Hv _ _ Hm H).
  - intros y s3 Q. apply (json_firm a); auto. apply ptok_self. eapply Hy; eauto.
  - intros (rest & u & K). apply Hn. exists rest, u. apply json_sentence. rewrite <- app_assoc in K. exact K.
  - intros (rest & u & K). apply Hn2. exists rest, u. apply json_sentence in K. rewrite <- app_assoc in K. cbn [app] in K.
    apply (json_swap _ _ _ s1 (ptok a) t (z :: rest) u); auto. destruct S1; split; auto.
Qed.
End P.
Print Assumptions C81_json.

(** ** Case: [1, {"a", 2}], with a comma for the colon *)
Theorem C81_case_json : let z := mtok "punct" "," 8 in let t := mtok "punct" ":" 7 in
  let is_json := is_json (fun x => x) (fun x => Z.of_nat (List.length x)) (fun x : list char => x) in
  is_json (ex_m1 ++ t :: ex_m2) (JList [JInt 1; JDict [(ascii_chars "a", JInt 1)]]) /\
  (forall y s3, ex_m2 = y :: s3 -> ~ is_punct "," y) /\
  (~ exists rest u, is_json (ex_m1 ++ z :: rest) u) /\
  (~ exists rest u, is_json (ex_m1 ++ t :: z :: rest) u) /\
  exists r, lexer_parse ex_mJ 60 json_parser (ex_m1 ++ z :: ex_m2) true = Ret r.
Proof.
  intros z t is_json. split; [|split; [|split; [|split]]].
  - apply (C61_texts _ _ _ (ex_m1 ++ mtok "punct" ":" 7 :: ex_m2) false). exists 60. eexists. split; vm_compute; reflexivity.
  - intros y s3 Q. injection Q as <- _. intros [H _]. discriminate.
  - destruct (lexer_parse ex_mJ 60 json_parser (ex_m1 ++ z :: ex_m2) false) as [r| |] eqn:H; try (vm_compute in H; discriminate).
    destruct (unwrap r false) as [u|errs] eqn:U; [vm_compute in H; injection H as <-; vm_compute in U; discriminate|].
    destruct (C61_position _ _ _ _ _ _ _ _ H U) as (p & e & -> & L & Hp & _ & K & _).
    vm_compute in H. injection H as <-. vm_compute in U. injection U as <-.
    do 9 (destruct p as [|p]; [first [discriminate L|exact (K ltac:(cbn; lia))]|]). cbn in Hp. destruct p; [discriminate L|lia].
  - destruct (lexer_parse ex_mJ 60 json_parser (ex_m1 ++ t :: z :: ex_m2) false) as [r| |] eqn:H; try (vm_compute in H; discriminate).
    destruct (unwrap r false) as [u|errs] eqn:U; [vm_compute in H; injection H as <-; vm_compute in U; discriminate|].
    destruct (C61_position _ _ _ _ _ _ _ _ H U) as (p & e & -> & L & Hp & _ & K & _).
    vm_compute in H. injection H as <-. vm_compute in U. injection U as <-.
    do 10 (destruct p as [|p]; [first [discriminate L|exact (K ltac:(cbn; lia))]|]). cbn in Hp. destruct p; [discriminate L|lia].
  - eexists. vm_compute. reflexivity.
Qed.
