(** Property C79 for the arithmetic parser of README.md: closing parentheses
    missing at the end. *)
From Verif Require Import Readme ReadmeSpec ReadmeProofs ReadmeLL Fuel Locations ApiProofs LL LangInv DiagProofs PropsRecovery PropsFirst FirstSpec
  PropsLL PropsBudget PropsReadme Examples Miss PropsMiss Close PropsClose.
From Coq Require Import Lia.
Import ListNotations.

Section P.
Variable space digit : char -> bool.
Variable dval : char -> Z.
Hypothesis cs : charset space digit.
Notation E := (expr_E space digit dval).
Notation is_sum := (is_sum space digit dval).
Notation is_term := (is_term space digit dval).
Notation is_atom := (is_atom space digit dval).
Notation blank := (blank space).
Notation numeral := (numeral digit dval).
Notation sent := (sentence E).
Notation top := expr_parser.

(** ** Expressions have as many opening as closing parentheses *)
Definition count (c : char) (w : list char) : nat := List.length (filter (N.eqb c) w).
Lemma count_app c a b : count c (a ++ b) = count c a + count c b.
Proof. unfold count. rewrite filter_app, app_length. reflexivity. Qed.
Lemma count_cons c x a : count c (x :: a) = (if N.eqb c x then 1 else 0) + count c a.
Proof. unfold count. cbn. destruct (N.eqb c x); reflexivity. Qed.
Lemma count_none c w (f : char -> bool) : f c = false -> Forall (fun x => f x = true) w -> count c w = 0.
Proof.
  intros Hc H. induction H as [|x w Hx _ IH]; [reflexivity|]. rewrite count_cons, IH.
  destruct (N.eqb_spec c x); [|reflexivity]. subst. congruence.
Qed.
Lemma count_blank c w : In c [40; 41]%N -> blank w -> count c w = 0.
Proof using All. intros Hc. apply count_none. apply (cs_special _ _ cs). cbn in *. tauto. Qed.
Lemma count_numeral c w v : In c [40; 41]%N -> numeral w v -> count c w = 0.
Proof using cs.
  intros Hc H. destruct (numeral_inv _ _ _ _ H) as (_ & F & _). eapply count_none; [|exact F]. apply (cs_special _ _ cs). cbn in *. tauto.
Qed.
Lemma sum_balanced w v : is_sum w v -> count 40%N w = count 41%N w.
Proof using cs.
  revert w v.
  enough (K : (forall w v, is_sum w v -> count 40%N w = count 41%N w) /\ (forall w v, is_term w v -> count 40%N w = count 41%N w) /\
    (forall w v, is_atom w v -> count 40%N w = count 41%N w)) by apply K.
  assert (B : forall w, blank w -> count 40%N w = 0 /\ count 41%N w = 0) by (intros w H; split; apply count_blank; cbn; auto).
  apply expr_mutind; auto.
  - intros s a w t b _ H1 Hw _ H2. destruct (B _ Hw). rewrite !count_app, !count_cons, !count_app. cbn [N.eqb Pos.eqb]. lia.
  - intros s a w t b _ H1 Hw _ H2. destruct (B _ Hw). rewrite !count_app, !count_cons, !count_app. cbn [N.eqb Pos.eqb]. lia.
  - intros s a w t b _ H1 Hw _ H2. destruct (B _ Hw). rewrite !count_app, !count_cons, !count_app. cbn [N.eqb Pos.eqb]. lia.
  - intros x a w Hx Hw. destruct (B _ Hw). rewrite !count_app, (count_numeral 40%N _ _ (or_introl eq_refl) Hx), (count_numeral 41%N _ _ (or_intror (or_introl eq_refl)) Hx). lia.
  - intros w s a w' Hw _ H Hw'. destruct (B _ Hw), (B _ Hw'). rewrite !count_cons, !count_app, !count_cons. cbn [N.eqb Pos.eqb]. lia.
Qed.

(** ** The closing parenthesis *)
Lemma close_apart : everywhere E (apart_node E 41%N) expr.
Proof using cs.
  assert (D : digit 41%N = false) by (apply (cs_special _ _ cs); cbn; auto).
  assert (K : forall A (p : gram char expr_V A) (P : char -> Prop), (forall w v, sent p w v -> exists c w', w = c :: w' /\ P c) -> ~ P 41%N -> ~ first E p 41%N).
  { intros A p P H N (w & v & Hw). apply H in Hw as (c & w' & Q & Hc). injection Q as <- _. exact (N Hc). }
  apply everywhere_gall; [intros d|]; cbn [gall apart_node expr_E sum term atom number mul_op add_op l_paren r_paren spaces expr
    chainl1 between seql seqr seq List.length];
  repeat match goal with |- _ /\ _ => split end; try exact I.
  all: first
    [ eapply K; [apply num_start|cbn; congruence]
    | apply (K _ _ (fun c => c = 40%N)); [|discriminate]; intros w v H; apply (paren_start space digit dval) in H as [w' ->]; eauto; fail
    | apply (K _ _ (fun c => c = 42%N)); [|discriminate]; intros w v H; eapply (seq_start space digit dval); [|exact H];
      intros w1 v1 H1; apply (mul_start space digit dval) in H1; exact H1
    | apply (K _ _ (fun c => c = 43%N \/ c = 45%N)); [|intros [?|?]; discriminate]; intros w v H; eapply (seq_start space digit dval); [|exact H];
      intros w1 v1 H1; apply (add_start space digit dval) in H1; exact H1 ].
Qed.
Lemma close_insertable : everywhere E (insertable_node 41%N) expr.
Proof using.
  apply everywhere_gall; [intros d|]; cbn [gall insertable_node expr_E sum term atom number mul_op add_op l_paren r_paren spaces expr
    chainl1 between seql seqr seq List.length];
  repeat match goal with |- _ /\ _ => split end; try exact I; intros z Q H; injection Q as <-; cbn in *; congruence.
Qed.
Definition re_apart B (q : gram char expr_V B) : Prop :=
  match q with GRegexp re => forall w v, lang E _ (GRegexp re) (map inl w) v -> ~ In 41%N w | _ => True end.
Lemma close_re : everywhere E re_apart expr.
Proof using cs.
  assert (D : digit 41%N = false /\ space 41%N = false) by (apply (cs_special _ _ cs); cbn; auto).
  assert (N : forall f w, f 41%N = false -> Forall (fun c : char => f c = true) w -> ~ In 41%N w).
  { intros f w Hf H Hi. rewrite Forall_forall in H. specialize (H _ Hi). congruence. }
  apply everywhere_gall; [intros d|]; cbn [gall re_apart expr_E sum term atom number mul_op add_op l_paren r_paren spaces expr
    chainl1 between seql seqr seq List.length];
  repeat match goal with |- _ /\ _ => split end; try exact I; intros w v H.
  all: first [apply (star_sent space digit dval) in H as [_ H]|apply (plus_sent space digit dval) in H as (_ & _ & H)
    |apply (class_sent space digit dval) in H as (c & H & -> & _)]; try (eapply N; [|exact H]; apply D).
  all: intros [Q|[]]; rewrite Q in H; discriminate H.
Qed.
Lemma close_closing : closing E expr 41%N.
Proof using cs.
  intros B q Ho. split; [apply close_apart; auto|]. split; [apply close_insertable; auto|].
  exact (close_re B q Ho).
Qed.
Lemma expr_to_end : everywhere E (to_end_node E) expr.
Proof using.
  apply everywhere_gall; [intros d|]; cbn [gall to_end_node expr_E sum term atom number mul_op add_op l_paren r_paren spaces expr
    chainl1 between seql seqr seq List.length];
  repeat match goal with |- _ /\ _ => split end; try exact I; try reflexivity; intros before w v H.
  all: first [apply (star_sent space digit dval) in H as [-> H]|apply (plus_sent space digit dval) in H as (-> & H0 & H)
    |apply (class_sent space digit dval) in H as (c & H & -> & ->)].
  all: unfold re_star, re_plus, re_class; rewrite skipn_before.
  all: try (rewrite H; reflexivity).
  all: assert (RL : forall f, Forall (fun c : char => f c = true) w -> run_len f w = List.length w) by
    (clear; intros f; induction 1 as [|c w Hc _ IH]; cbn; [reflexivity|rewrite Hc, IH; reflexivity]).
  all: rewrite (RL _ H).
  all: try (rewrite firstn_all; reflexivity).
  all: destruct w; [congruence|]; cbn [List.length firstn]; rewrite firstn_all; reflexivity.
Qed.
Lemma expr_inserts l w : inserts E expr l w -> (l = "'('"%string /\ w = [inl 40%N]) \/ (l = "')'"%string /\ w = [inl 41%N]).
Proof using.
  intros (B & q & Ho & Hq). revert B q Ho Hq.
  enough (K : everywhere E (fun B q => insert_node q l w -> (l = "'('"%string /\ w = [inl 40%N]) \/ (l = "')'"%string /\ w = [inl 41%N])) expr) by exact K.
  apply everywhere_gall; [intros d|]; solve_gall; intros [-> ->]; auto.
Qed.
Lemma inserted_text ins : Forall (fun w => exists l, inserts E expr l w) ins ->
  exists cw, List.concat ins = map inl cw /\ List.length cw = List.length ins /\ count 40%N cw + count 41%N cw = List.length cw.
Proof using.
  induction 1 as [|w ins (l & H) _ (cw & Q & L & C)]; [exists []; auto|].
  apply expr_inserts in H as [[_ ->]|[_ ->]]; [exists (40%N :: cw)|exists (41%N :: cw)]; cbn [List.concat app map List.length];
    rewrite !count_cons; cbn [N.eqb Pos.eqb]; (split; [f_equal; exact Q|split; lia]).
Qed.
Lemma count_repeat k : count 40%N (repeat 41%N k) = 0 /\ count 41%N (repeat 41%N k) = k.
Proof using. induction k as [|k [IH1 IH2]]; [auto|]. cbn [repeat]. rewrite !count_cons, IH1, IH2. auto. Qed.
Lemma all_close cw : count 40%N cw = 0 -> count 40%N cw + count 41%N cw = List.length cw -> cw = repeat 41%N (List.length cw).
Proof using.
  intros H0 H. rewrite H0 in H. cbn in H. revert H. clear H0. induction cw as [|c cw IH]; [auto|].
  rewrite count_cons. cbn [List.length repeat]. assert (count 41%N cw <= List.length cw) by (clear; induction cw as [|x cw IH]; [auto|]; rewrite count_cons; cbn [List.length]; destruct (N.eqb 41 x); lia).
  destruct (N.eqb_spec 41 c) as [<-|Hc]; intros Q; [|lia]. f_equal. apply IH. lia.
Qed.
(** a text that [k] closing parentheses complete has no completion by fewer insertions *)
Lemma completions src k v ins u : is_sum (src ++ repeat 41%N k) v -> Forall (fun w => exists l, inserts E expr l w) ins ->
  lang E Z expr (map inl src ++ List.concat ins) u ->
  k <= List.length ins /\ (List.length ins <= k -> List.concat ins = map inl (repeat 41%N k)).
Proof using cs.
  intros Hv Hi Hu. destruct (inserted_text _ Hi) as (cw & Q & L & C). rewrite Q, <- map_app in Hu.
  apply (expr_sentence space digit dval) in Hu. apply sum_balanced in Hv, Hu. rewrite !count_app in Hv, Hu. destruct (count_repeat k) as [R1 R2].
  split; [lia|]. intros Hle. rewrite Q. f_equal. rewrite (all_close cw); [f_equal|..]; lia.
Qed.

(** ** Missing closing parentheses are inserted, each reported at the end of the
    text; the result is the value of the completed text *)
Theorem C79_readme : forall src k v mi n r,
  is_sum (src ++ repeat 41%N k) v -> 1 <= k -> (mi < 0 \/ Z.of_nat k <= mi)%Z ->
  parse E n top src true mi scannerless_get_loc linecol_fmt = Ret r ->
  exists errs, unwrap r false = Raises errs /\ unwrap r true = Returns v /\ List.length errs = k /\
    Forall (fun e => ei_loc e = true_loc src (List.length src) /\ ei_op e = Some (Insert "')'")) errs.
Proof using cs.
  intros src k v mi n r Hv Hk Hm H.
  destruct (C79_completed char expr_V E n Z expr src (repeat 41%N k) v mi scannerless_get_loc linecol_fmt (true_loc src) r
    (expr_wf_E _ _ _) expr_wf (scannerless_cohere src) (or_introl (scannerless_exact src)) (exact_distinct _ _ (scannerless_exact src)) (expr_completable _ _ _ cs)
    (expr_LL1 _ _ _ cs) (expr_quiet _ _ _) (expr_guarded _ _ _) expr_to_end (expr_next_token _ _ _) (expr_layout_free _ _ _) (expr_single_withs _ _ _))
    as (errs & U1 & U2 & F); auto.
  - destruct k; [lia|discriminate].
  - apply Forall_forall. intros x Hx. apply repeat_spec in Hx as ->. exact close_closing.
  - apply expr_sentence. exact Hv.
  - unfold enough. rewrite repeat_length. exact Hm.
  - intros ins u Hi Hle Hu. rewrite repeat_length in Hle. apply (completions _ _ _ _ _ Hv Hi Hu). exact Hle.
  - exists errs. split; auto. split; auto. split.
    + transitivity (List.length (repeat 41%N k)); [clear - F; induction F; cbn; auto|apply repeat_length].
    + assert (R : Forall (fun x => x = 41%N) (repeat 41%N k)) by (apply Forall_forall; intros x Hx; apply repeat_spec in Hx; auto).
      clear - F R. induction F as [|e x es xs (L & l & O & I) _ IH]; constructor.
      * split; auto. inversion R. subst. apply expr_inserts in I as [[_ I]|[-> _]]; [discriminate|exact O].
      * apply IH. inversion R. auto.
Qed.
(** ... unless more are missing than may be inserted: then there is one error, at
    the end, and no result *)
Theorem C79_readme_too_deep : forall src k v mi n r,
  is_sum (src ++ repeat 41%N k) v -> (0 <= mi < Z.of_nat k)%Z ->
  parse E n top src true mi scannerless_get_loc linecol_fmt = Ret r ->
  exists e, unwrap r false = Raises [e] /\ unwrap r true = Raises [e] /\
    ei_loc e = true_loc src (List.length src) /\ ei_op e = None.
Proof using cs.
  intros src k v mi n r Hv Hm H.
  apply (C79_too_many char expr_V E n Z expr src mi scannerless_get_loc linecol_fmt (true_loc src) r
    (expr_wf_E _ _ _) expr_wf (scannerless_cohere src) (or_introl (scannerless_exact src)) (exact_distinct _ _ (scannerless_exact src)) (expr_completable _ _ _ cs)
    (expr_LL1 _ _ _ cs) (expr_next_token _ _ _) (expr_layout_free _ _ _) (expr_single_withs _ _ _)); auto; [|lia|].
  - exists (repeat 41%N k), v. apply expr_sentence. exact Hv.
  - intros ins u Hi Hu. pose proof (proj1 (completions _ _ _ _ _ Hv Hi Hu)). lia.
Qed.
End P.
Print Assumptions C79_readme.
Print Assumptions C79_readme_too_deep.

(** 2 * (3 + (4 * (5 - 6: three parentheses are missing *)
Example C79_case_readme :
  is_sum ascii_space ascii_digit ascii_dval (ex_str "2 * (3 + (4 * (5 - 6" ++ repeat 41%N 3) (-2) /\
  exists r, scannerless_parse (expr_E ascii_space ascii_digit ascii_dval) 300 expr_parser (ex_str "2 * (3 + (4 * (5 - 6") true = Ret r.
Proof.
  split; [apply (C63_eval _ _ _ ascii_charset); exists 400; vm_compute; reflexivity|]. eexists. vm_compute. reflexivity.
Qed.
Example C79_case_readme_too_deep :
  is_sum ascii_space ascii_digit ascii_dval (ex_str "((((((7" ++ repeat 41%N 6) 7 /\
  exists r, scannerless_parse (expr_E ascii_space ascii_digit ascii_dval) 300 expr_parser (ex_str "((((((7") true = Ret r.
Proof.
  split; [apply (C63_eval _ _ _ ascii_charset); exists 400; vm_compute; reflexivity|]. eexists. vm_compute. reflexivity.
Qed.
