(** The parser of README.md meets the conditions of the general theorems *)
From Verif Require Import Readme ReadmeSpec ReadmeProofs LL LangInv PatchSpec CostSpec CostProofs PropsCost DiagProofs PropsDiag PropsRecovery PropsTotal PropsFirst FirstSpec PropsLL Examples.
From Coq Require Import Lia.
Local Open Scope N_scope.

Section P.
Variable space digit : char -> bool.
Variable dval : char -> Z.
Hypothesis cs : charset space digit.
Notation E := (expr_E space digit dval).
Notation sp := (spaces space).
Notation num := (number space digit dval).
Notation atm := (atom space digit dval).
Notation trm := (term space digit dval).
Notation sm := (sum space digit dval).
Notation mulp := (mul_op space).
Notation addp := (add_op space).
Notation lp := (l_paren space).
Notation rp := (r_paren space).
Notation sent := (sentence E).
Notation egram := (gram char expr_V).

Ltac wf_tac := repeat split; cbn; auto; try discriminate;
  try (intros; eapply star_wf; eauto; fail); try (intros; eapply plus_wf; eauto; fail); try (intros; eapply class_wf; eauto; fail);
  try (intros ? [<-|[]]; apply N.eqb_refl).
Lemma expr_wf_E : wf_env E.
Proof using. intros d. wf_tac. all: intros; (eapply star_wf || eapply plus_wf || eapply class_wf); eauto. Qed.
Lemma expr_wf : wf expr.
Proof using. wf_tac. Qed.

(** *** what parts start with *)
Lemma num_start w v : sent num w v -> exists c w', w = c :: w' /\ digit c = true.
Proof using.
  intros H. apply number_sent in H as (x & b & -> & H & _). apply numeral_inv in H as (H1 & H2 & _).
  destruct x as [|c x]; [congruence|]. inversion H2; subst. exists c, (x ++ b). auto.
Qed.
Lemma paren_start w v : sent (between lp rp expr) w v -> exists w', w = 40 :: w'.
Proof using. intros H. apply paren_sent in H as (b & s & b' & -> & _). eauto. Qed.
Lemma atom_start w v : sent atm w v -> exists c w', w = c :: w' /\ (digit c = true \/ c = 40).
Proof using.
  intros H. apply alt_sent in H as [H|H].
  - apply num_start in H as (c & w' & -> & H). eauto 6.
  - apply paren_start in H as (w' & ->). eauto 6.
Qed.
Lemma chain_start (arg : egram Z) op (P : char -> Prop) : (forall w v, sent arg w v -> exists c w', w = c :: w' /\ P c) ->
  forall w v, sent (chainl1 arg op) w v -> exists c w', w = c :: w' /\ P c.
Proof using.
  intros H w v K. apply fmap_sent in K as ([x l] & K & _). apply sent_inv in K as (w1 & w2 & v1 & v2 & -> & _ & K & _).
  apply H in K as (c & w' & -> & K). exists c, (w' ++ w2). auto.
Qed.
Lemma term_start w v : sent trm w v -> exists c w', w = c :: w' /\ (digit c = true \/ c = 40).
Proof using. apply chain_start, atom_start. Qed.
Lemma sum_start w v : sent sm w v -> exists c w', w = c :: w' /\ (digit c = true \/ c = 40).
Proof using. apply chain_start, term_start. Qed.
Lemma mul_start w v : sent mulp w v -> exists c w', w = c :: w' /\ c = 42.
Proof using. intros H. apply mul_sent in H as (b & -> & _). eauto. Qed.
Lemma add_start w v : sent addp w v -> exists c w', w = c :: w' /\ (c = 43 \/ c = 45).
Proof using. intros H. apply add_sent in H as (b & _ & [[-> _]|[-> _]]); eauto 6. Qed.
Lemma seq_start A B (p : egram A) (q : egram B) (P : char -> Prop) :
  (forall w v, sent p w v -> exists c w', w = c :: w' /\ P c) ->
  forall w v, sent (seq p q) w v -> exists c w', w = c :: w' /\ P c.
Proof using.
  intros H w v K. apply sent_inv in K as (w1 & w2 & v1 & v2 & -> & _ & K & _). apply H in K as (c & w' & -> & K).
  exists c, (w' ++ w2). auto.
Qed.
Lemma first_start A (p : egram A) (P : char -> Prop) : (forall w v, sent p w v -> exists c w', w = c :: w' /\ P c) ->
  forall o, first_is E p o -> exists c, o = Some c /\ P c.
Proof using.
  intros H [c|] F; [|destruct F]. destruct F as (w & v & F). apply H in F as (c' & w' & Q & F). injection Q as <- _. eauto.
Qed.
Lemma start_starts A (p : egram A) (P : char -> Prop) K : (forall w v, sent p w v -> exists c w', w = c :: w' /\ P c) ->
  forall o, starts E p K o -> exists c, o = Some c /\ P c.
Proof using.
  intros H o [F|[[v N] _]]; [eapply first_start; eauto|]. apply H in N as (c & w' & Q & _). discriminate.
Qed.
Lemma start_not_nullable A (p : egram A) (P : char -> Prop) : (forall w v, sent p w v -> exists c w', w = c :: w' /\ P c) -> ~ nullable E p.
Proof using. intros H [v N]. apply H in N as (c & w' & Q & _). discriminate. Qed.

(** *** a text exists *)
Lemma a_number : exists w v, sent num w v.
Proof using cs.
  destruct (cs_some _ _ cs) as [c Hc]. exists [c], (dval c). apply number_sent. exists [c], [].
  split; [reflexivity|]. split; [constructor; exact Hc|constructor].
Qed.
Lemma a_sum : exists w v, sent sm w v.
Proof using cs.
  destruct a_number as (w & v & H). exists w, v. apply chain_one, chain_one, alt_sent. left. exact H.
Qed.
Lemma an_expr : exists w v, sent expr w v.
Proof using cs. destruct a_sum as (w & v & H). exists w, v. refine (la_delay E 0 _ _ _). exact H. Qed.
Lemma spaces_any : exists w v, sent sp w v.
Proof using. exists [], []. apply star_sent. auto. Qed.

Lemma op_returns c o : op_action c = Ret o -> forall a b, returns (o a b).
Proof using.
  intros H a b. unfold op_action in H. repeat match type of H with context [match ?x with _ => _ end] => destruct x; try discriminate end;
    injection H as <-; eexists; reflexivity.
Qed.
Lemma loop_returns l : Forall (fun p : (Z -> Z -> out Z) * Z => forall a b, returns (fst p a b)) l -> forall a, returns (chainl1_loop a l).
Proof using.
  induction 1 as [|[o y] l H _ IH]; intros a; cbn; [eexists; reflexivity|].
  destruct (H a y) as [c Hc]. cbn in Hc. rewrite Hc. cbn. apply IH.
Qed.
Lemma chain_returns (arg : egram Z) op w v : (forall w o, lang E _ op w o -> forall a b, returns (o a b)) ->
  lang E _ (seq arg (GMany (seq op arg))) w v -> returns (chainl1_reducer v).
Proof using.
  intros H K. apply lang_inv in K as (w1 & w2 & v1 & v2 & -> & -> & _ & K). unfold chainl1_reducer. cbn [fst snd].
  apply loop_returns. eapply many_values; [|exact K]. intros w v K'.
  apply lang_inv in K' as (w3 & w4 & v3 & v4 & -> & -> & K' & _). eapply H; eauto.
Qed.
Lemma oplang f w o : lang E _ (seql (GFmap (GRegexp (re_class f)) op_action) sp) w o -> w <> [] /\ forall a b, returns (o a b).
Proof using.
  intros H. apply lang_inv in H as (w1 & w2 & v1 & v2 & -> & -> & H & _). apply lang_inv in H as (u & H & Q).
  split; [|eapply op_returns; exact Q]. apply lang_inv in H as (s & i & e & H & ->). unfold re_class in H.
  destruct (skipn i s) as [|c l]; [discriminate|]. destruct (f c); [|discriminate]. injection H as <- _.
  rewrite Nat.add_comm, Nat.add_sub. discriminate.
Qed.
Lemma mul_lang w o : lang E _ mulp w o -> w <> [] /\ forall a b, returns (o a b).
Proof using. apply oplang. Qed.
Lemma add_lang w o : lang E _ addp w o -> w <> [] /\ forall a b, returns (o a b).
Proof using. apply oplang. Qed.

Lemma op_action_class f w v : (forall c, f c = true -> In c [42; 43; 45]) -> lang E _ (GRegexp (re_class f)) w v -> returns (op_action v).
Proof using.
  intros Hf H. apply lang_inv in H as (s & i & e & H & _). unfold re_class in H. destruct (skipn i s) as [|c l]; [discriminate|].
  destruct (f c) eqn:Q; [|discriminate]. injection H as <- <-. apply Hf in Q as [<-|[<-|[<-|[]]]]; eexists; reflexivity.
Qed.
Lemma mul_class c : N.eqb c 42 = true -> In c [42; 43; 45].
Proof using. intros H. apply N.eqb_eq in H as ->. cbn. auto. Qed.
Lemma add_class c : N.eqb c 45 || N.eqb c 43 = true -> In c [42; 43; 45].
Proof using. intros H. apply orb_true_iff in H as [H|H]; apply N.eqb_eq in H as ->; cbn; auto. Qed.

(** *** completable *)
Lemma tok_completable A (p : egram A) : gall (completable_node E) p -> gall (completable_node E) (seql p sp).
Proof using. intros H. split; [apply spaces_any|]. split; [exact H|]. split; exact I. Qed.
Lemma chain_completable (arg : egram Z) op : (exists w v, sent arg w v) -> (forall w o, lang E _ op w o -> forall a b, returns (o a b)) ->
  gall (completable_node E) arg -> gall (completable_node E) op -> gall (completable_node E) (chainl1 arg op).
Proof using.
  intros He Hr Ha Ho. split; [|split; [exists [], []; constructor|split; [exact Ha|split; [exact I|split; [exact He|split; assumption]]]]].
  intros w v H. eapply chain_returns; eauto.
Qed.
Lemma op_completable f : (forall c, f c = true -> In c [42; 43; 45]) ->
  gall (completable_node E) (seql (GFmap (GRegexp (re_class f)) op_action) sp).
Proof using.
  intros Hf. apply tok_completable. split; [|split; exact I]. intros w v H. eapply op_action_class; eauto.
Qed.
Lemma expr_completable : everywhere E (completable_node E) expr.
Proof using cs.
  apply everywhere_gall; [intros d|split; exact I]. unfold expr_E, sum.
  assert (A : gall (completable_node E) atm).
  { unfold atom. split; [exact I|]. split.
    - apply tok_completable. split; [|split; exact I]. intros. eexists. reflexivity.
    - unfold between, seqr. split; [|split; [apply tok_completable; split; exact I|split; [|split; [split; exact I|apply tok_completable; split; exact I]]]].
      + destruct an_expr as (w & v & H). exists (w ++ [41]), v. apply seql_sent. exists w, [41], [41].
        split; [reflexivity|]. split; [exact H|]. apply rp_sent. exists []. split; [reflexivity|]. split; [constructor|reflexivity].
      + exists [41], [41]. apply rp_sent. exists []. split; [reflexivity|]. split; [constructor|reflexivity]. }
  destruct a_number as (w & v & H).
  apply chain_completable; [exists w, v; apply chain_one, alt_sent; left; exact H|intros; eapply add_lang; eauto|
    |apply op_completable, add_class].
  apply chain_completable; [exists w, v; apply alt_sent; left; exact H|intros; eapply mul_lang; eauto|exact A|apply op_completable, mul_class].
Qed.

(** *** LL(1) *)
Definition expr_follow (d : nat) (o : option char) : Prop := o = None \/ o = Some 41.
(** what follows is not white space, not a digit *)
Definition sharp (K : option char -> Prop) : Prop := forall c, K (Some c) -> space c = false /\ digit c = false.
Lemma special c : In c [40; 41; 42; 43; 45] -> digit c = false /\ space c = false.
Proof using cs. apply (cs_special _ _ cs). Qed.
Lemma star_ll1 (K : option char -> Prop) : (forall c, K (Some c) -> space c = false) -> ll1 E expr_follow sp K.
Proof using.
  intros H. cbn [spaces ll1]. intros before w rest v Hw HK. apply star_sent in Hw as [-> Hw].
  unfold re_star. rewrite skipn_before, run_len_all; [|exact Hw|].
  - rewrite firstn_len. reflexivity.
  - intros c Hc. apply H. rewrite <- Hc. exact HK.
Qed.
Lemma sp_starts (K : option char -> Prop) o : starts E sp K o -> (exists c, o = Some c /\ space c = true) \/ K o.
Proof using.
  intros [F|[_ F]]; [left|right; exact F]. destruct o as [c|]; [|destruct F]. destruct F as (w & v & F).
  apply star_sent in F as [_ F]. inversion F; subst. eauto.
Qed.
Lemma num_ll1 K : sharp K -> ll1 E expr_follow num K.
Proof using cs.
  intros HK. unfold number, seql. cbn [ll1]. split; [|apply star_ll1; intros c Hc; apply HK, Hc].
  intros before w rest v Hw Hn. apply plus_sent in Hw as (-> & Hne & Hw). unfold re_plus.
  rewrite skipn_before, run_len_all; [|exact Hw|].
  - destruct w as [|c w]; [congruence|]. cbn [List.length]. rewrite (firstn_len (c :: w) rest : firstn (S (List.length w)) ((c :: w) ++ rest) = c :: w). reflexivity.
  - intros c Hc. rewrite Hc in Hn. apply sp_starts in Hn as [(c' & Q & Hn)|Hn]; [|apply HK, Hn].
    injection Q as <-. destruct (digit c) eqn:Qd; [|reflexivity]. rewrite (cs_digit _ _ cs c Qd) in Hn. discriminate.
Qed.
Lemma op_ll1 f (K : option char -> Prop) : (forall c, K (Some c) -> space c = false) -> ll1 E expr_follow (seql (GFmap (GRegexp (re_class f)) op_action) sp) K.
Proof using.
  intros HK. unfold seql. cbn [ll1]. split; [|apply star_ll1; exact HK].
  intros before w rest v Hw _. apply class_sent in Hw as (c & Hc & -> & ->). unfold re_class. rewrite skipn_before. cbn [app].
  rewrite Hc. reflexivity.
Qed.
Lemma lit_ll1 k l (K : option char -> Prop) : (forall c, K (Some c) -> space c = false) -> ll1 E expr_follow (seql (GLiteral N.eqb [k] l) sp) K.
Proof using. intros HK. unfold seql. cbn [ll1]. split; [exact I|apply star_ll1; exact HK]. Qed.
Lemma atom_ll1 K : sharp K -> ll1 E expr_follow atm K.
Proof using cs.
  intros HK. unfold atom. cbn [ll1]. split; [apply num_ll1, HK|]. split; [|split].
  - unfold between, seqr. cbn [ll1]. split; [apply lit_ll1|unfold seql; cbn [ll1]; split; [|apply lit_ll1; intros c Hc; apply HK, Hc]].
    + intros c Hc.
      assert (S : forall w v, sent (seql expr rp) w v -> exists c w', w = c :: w' /\ (digit c = true \/ c = 40)).
      { intros w v H. apply seql_sent in H as (w1 & w2 & v2 & -> & H & _). apply sent_inv in H. apply sum_start in H as (c' & w' & -> & H).
        exists c', (w' ++ w2). auto. }
      eapply start_starts in Hc as (c' & Q & Hc); [|exact S]. injection Q as <-.
      destruct Hc as [Hc| ->]; [apply (cs_digit _ _ cs c Hc)|apply special; cbn; tauto].
    + intros o Ho. eapply start_starts with (P := fun c => c = 41) in Ho as (c & -> & ->); [right; reflexivity|].
      intros w v H. apply rp_sent in H as (b & -> & _). eauto.
  - eapply start_not_nullable, num_start.
  - intros o H1 H2. eapply first_start in H1 as (c & -> & H1); [|apply num_start].
    eapply start_starts with (P := fun c => c = 40) in H2 as (c' & Q & H2).
    + injection Q as <-. subst c. pose proof (special 40 ltac:(cbn; tauto)) as [X _]. congruence.
    + intros w v H. apply paren_start in H as (w' & ->). eauto.
Qed.
Lemma chain_ll1 (arg : egram Z) op (P Q : char -> Prop) K :
  (forall w v, sent arg w v -> exists c w', w = c :: w' /\ P c) ->
  (forall w v, sent op w v -> exists c w', w = c :: w' /\ Q c) ->
  (forall K', sharp K' -> (forall o, K' o -> K o \/ exists c, o = Some c /\ Q c) -> ll1 E expr_follow arg K') ->
  (forall K' : option char -> Prop, (forall c, K' (Some c) -> space c = false) -> ll1 E expr_follow op K') ->
  sharp K -> (forall c, Q c -> space c = false /\ digit c = false) -> (forall c, P c -> space c = false) ->
  (forall c, Q c -> ~ K (Some c)) ->
  ll1 E expr_follow (chainl1 arg op) K.
Proof using.
  intros HP HQ Ha Ho HK Hq Hp HD. unfold chainl1, seq. cbn [ll1].
  assert (HS : forall w v, sent (seq op arg) w v -> exists c w', w = c :: w' /\ Q c) by (apply seq_start; exact HQ).
  assert (HM : forall o, starts E (GMany (seq op arg)) K o -> K o \/ exists c, o = Some c /\ Q c).
  { intros o [F|[_ F]]; [right|left; exact F]. destruct o as [c|]; [|destruct F]. destruct F as (w & v & F).
    apply sent_inv in F as [[F _]|(w1 & w2 & v1 & l & Hw & _ & F & _)]; [discriminate|].
    apply HS in F as (c' & w' & -> & F). injection Hw as <- _. eauto. }
  assert (SH : forall K' : option char -> Prop, (forall o, K' o -> K o \/ exists c, o = Some c /\ Q c) -> sharp K').
  { intros K' H c Hc. apply H in Hc as [Hc|(c' & E' & Hc)]; [apply HK, Hc|]. injection E' as <-. apply Hq, Hc. }
  split; [apply Ha; [apply SH|]; exact HM|]. split; [split|split].
  - apply Ho. intros c Hc. eapply start_starts in Hc as (c' & E' & Hc); [|exact HP]. injection E' as <-. apply Hp, Hc.
  - assert (H : forall o, first_is E (seq op arg) o \/ K o -> K o \/ exists c, o = Some c /\ Q c).
    { intros o [F|F]; [right|left; exact F]. eapply first_start; eauto. }
    apply Ha; [apply SH|]; exact H.
  - eapply start_not_nullable, HS.
  - intros o F Hk. eapply first_start in F as (c & -> & F); [|exact HS]. eapply HD; eauto.
Qed.
Lemma expr_LL1 : LL1 E expr.
Proof using cs.
  exists expr_follow. split; [intros o ->; left; reflexivity|]. intros d. unfold expr_E.
  assert (HD : forall c, digit c = true \/ c = 40 -> space c = false).
  { intros c [H| ->]; [apply (cs_digit _ _ cs c H)|apply special; cbn; tauto]. }
  assert (HF : forall c, expr_follow d (Some c) -> c = 41) by (intros c [H|H]; [discriminate|injection H as ->; reflexivity]).
  unfold sum. eapply chain_ll1; [apply term_start|apply add_start| | | | |exact HD|].
  - intros K' S H. unfold term. eapply chain_ll1; [apply atom_start|apply mul_start| |intros; apply op_ll1; auto|exact S| |exact HD|].
    + intros K'' S' _. apply atom_ll1, S'.
    + intros c ->. destruct (special 42 ltac:(cbn; tauto)). auto.
    + intros c -> Hc. apply H in Hc as [Hc|(c & Q & [-> | ->])]; [apply HF in Hc|injection Q as Hc|injection Q as Hc]; lia.
  - intros K' H. apply op_ll1. exact H.
  - intros c Hc. apply HF in Hc as ->. destruct (special 41 ltac:(cbn; tauto)). auto.
  - intros c [-> | ->]; [destruct (special 43 ltac:(cbn; tauto))|destruct (special 45 ltac:(cbn; tauto))]; auto.
  - intros c Hc Hk. apply HF in Hk as ->. destruct Hc; lia.
Qed.

(** *** no exceptions, no loops *)
Lemma seq_not_empty A B (p : egram A) (q : egram B) v : (forall w o, lang E _ p w o -> w <> []) -> ~ lang E _ (seq p q) [] v.
Proof using.
  intros H K. apply lang_inv in K as (w1 & w2 & v1 & v2 & Hw & _ & K & _). apply app_nil_inv in Hw as [-> ->]. eapply H; eauto.
Qed.
Lemma expr_quiet : everywhere E (quiet_node E) expr.
Proof using.
  apply everywhere_gall; [intros d|split; exact I]. unfold expr_E, sum.
  assert (T : forall A (p : egram A), gall (quiet_node E) p -> gall (quiet_node E) (seql p sp)).
  { intros A p H. split; [exact I|]. split; [exact H|split; exact I]. }
  assert (O : forall f, (forall c, f c = true -> In c [42; 43; 45]) -> gall (quiet_node E) (seql (GFmap (GRegexp (re_class f)) op_action) sp)).
  { intros f Hf. apply T. split; [|split; exact I]. intros w v H. eapply op_action_class; eauto. }
  assert (C : forall (arg : egram Z) op, (forall w o, lang E _ op w o -> w <> [] /\ forall a b, returns (o a b)) ->
    gall (quiet_node E) arg -> gall (quiet_node E) op -> gall (quiet_node E) (chainl1 arg op)).
  { intros arg op Ho H1 H2. split; [|split; [exact I|split; [exact H1|split; [|split; [exact I|split; assumption]]]]].
    - intros w v H. eapply chain_returns; [|exact H]. intros. eapply Ho; eauto.
    - intros v. apply seq_not_empty. intros w o H. eapply Ho; eauto. }
  apply C; [intros; apply add_lang; auto| |apply O, add_class]. apply C; [intros; apply mul_lang; auto| |apply O, mul_class].
  unfold atom. split; [exact I|]. split.
  - apply T. split; [|split; exact I]. intros. eexists. reflexivity.
  - split; [exact I|]. split; [apply T; split; exact I|]. split; [exact I|]. split; [split; exact I|apply T; split; exact I].
Qed.
Lemma no_lcall d d' : ~ lcall E _ (E d) d'.
Proof using.
  assert (R : forall A (m : list char -> nat -> option (nat * option A)) e, ~ lcall E _ (GRegexp m) e) by (intros A m e H; apply lcall_inv in H; exact H).
  assert (T : forall A (p : egram A) e, (forall e, ~ lcall E _ p e) -> ~ lcall E _ (seql p sp) e).
  { intros A p e Hp H. apply lcall_inv in H as [H|[_ H]]; [eapply Hp; eauto|eapply R; exact H]. }
  assert (F : forall A B (p : egram A) (f : A -> out B) e, ~ lcall E _ p e -> ~ lcall E _ (GFmap p f) e).
  { intros A B p f e Hp H. apply lcall_inv in H. auto. }
  assert (L : forall e, ~ lcall E _ lp e).
  { intros e. apply T. intros e' H. apply lcall_inv in H. exact H. }
  assert (NL : forall v, ~ lang E _ lp [] v).
  { intros v H. change (sent lp [] v) in H. apply lp_sent in H as (b & H & _). discriminate. }
  assert (A0 : forall e, ~ lcall E _ atm e).
  { intros e H. apply lcall_inv in H as [H|H].
    - revert H. apply T. intros e'. apply F, R.
    - apply lcall_inv in H as [H|[[v H] _]]; [eapply L; eauto|eapply NL; eauto]. }
  assert (C : forall (arg : egram Z) op e, (forall e, ~ lcall E _ arg e) -> (forall v, ~ sent arg [] v) -> ~ lcall E _ (chainl1 arg op) e).
  { intros arg op e Ha Hn H. apply lcall_inv in H. apply lcall_inv in H as [H|[[v H] _]]; [eapply Ha; eauto|exact (Hn v H)]. }
  apply C.
  - intros e. apply C; [exact A0|]. intros v H. apply atom_start in H as (c & w' & H & _). discriminate.
  - intros v H. apply term_start in H as (c & w' & H & _). discriminate.
Qed.
Lemma expr_guarded : guarded E expr.
Proof using. intros d _. constructor. intros d' H. exfalso. eapply no_lcall; eauto. Qed.
Lemma expr_with_free : with_free E expr.
Proof using. apply everywhere_gall; [intros d|]; solve_gall. Qed.
Lemma expr_no_attempt : no_attempt expr_parser /\ forall d, no_attempt (E d).
Proof using. split; [|intros d]; solve_gall. Qed.
Lemma expr_size : bounded_size E expr_parser.
Proof using.
  destruct (size_exists expr_parser) as [a Ha]; [solve_gall|].
  destruct (size_exists (E 0%nat)) as [b Hb]; [solve_gall|].
  exists (a + b)%nat. split; [eapply size_mono; [|exact Ha]; lia|]. intros d. eapply size_mono; [|exact Hb]. lia.
Qed.
Lemma expr_depth : bounded_depth E expr_parser.
Proof using.
  exists 1%nat. assert (L : forall d, left_depth E 0%nat (E d)) by (intros d d' H; exact (no_lcall d d' H)).
  split; [intros d _; apply L|]. intros d. apply left_mono, L.
Qed.

(** *** decided by the next character *)
Lemma skipn_cons_nth (s : list char) i c l : skipn i s = c :: l -> nth_error s i = Some c /\ skipn (S i) s = l.
Proof using.
  revert s. induction i as [|i IH]; intros [|x s] H; cbn in *; try discriminate.
  - injection H as -> ->. auto.
  - apply IH in H. exact H.
Qed.
Lemma skipn_nil_nth (s : list char) i : skipn i s = [] <-> nth_error s i = None.
Proof using.
  revert s. induction i as [|i IH]; intros [|x s]; cbn; try tauto; try (split; discriminate).
  apply IH.
Qed.
Lemma skipn_some_nth (s : list char) i c : nth_error s i = Some c -> skipn i s = c :: skipn (S i) s.
Proof using.
  revert s. induction i as [|i IH]; intros [|x s] H; cbn in *; try discriminate.
  - injection H as ->. reflexivity.
  - apply IH in H. exact H.
Qed.
Lemma run_same (f : char -> bool) n : forall (s s' : list char) i, run_len f (skipn i s) = n ->
  (forall k, i <= k <= i + n -> nth_error s' k = nth_error s k)%nat ->
  run_len f (skipn i s') = n /\ firstn n (skipn i s') = firstn n (skipn i s).
Proof using.
  induction n as [|n IH]; intros s s' i H K.
  - split; [|reflexivity]. specialize (K i ltac:(lia)). destruct (nth_error s i) as [c|] eqn:Q.
    + rewrite (skipn_some_nth _ _ _ Q) in H. rewrite (skipn_some_nth _ _ _ K). cbn in *. destruct (f c); [discriminate|reflexivity].
    + apply skipn_nil_nth in K as ->. reflexivity.
  - destruct (nth_error s i) as [c|] eqn:Q.
    + pose proof (K i ltac:(lia)) as K0. rewrite Q in K0. rewrite (skipn_some_nth _ _ _ Q) in *. rewrite (skipn_some_nth _ _ _ K0).
      cbn [run_len firstn] in *. destruct (f c); [|discriminate]. injection H as H.
      destruct (IH s s' (S i) H) as [-> ->]; [|auto]. intros k Hk. apply K. lia.
    + apply skipn_nil_nth in Q. rewrite Q in H. discriminate.
Qed.
Lemma star_decided f : decided_re (re_star f).
Proof using.
  intros s s' i Hi. unfold re_star. split.
  - intros e v H K. injection H as <- <-. destruct (run_same f _ s s' i eq_refl) as [-> ->]; [|reflexivity].
    intros k Hk. apply K. lia.
  - intros H. exfalso. eapply H. reflexivity.
Qed.
Lemma plus_decided f : decided_re (re_plus f).
Proof using.
  intros s s' i Hi. unfold re_plus. split.
  - intros e v H K. destruct (run_len f (skipn i s)) as [|n] eqn:Q; [discriminate|]. injection H as <- <-.
    destruct (run_same f _ s s' i Q) as [-> ->]; [|reflexivity]. intros k Hk. apply K. lia.
  - intros H K _ e v. destruct (run_len f (skipn i s)) as [|n] eqn:Q; [|exfalso; eapply H; reflexivity].
    destruct (run_same f _ s s' i Q) as [-> _]; [|discriminate]. intros k Hk. assert (k = i) as -> by lia. exact K.
Qed.
Lemma class_decided f : decided_re (re_class f).
Proof using.
  intros s s' i Hi. unfold re_class. split.
  - intros e v H K. destruct (skipn i s) as [|c l] eqn:Q; [discriminate|]. apply skipn_cons_nth in Q as [Q _].
    destruct (f c) eqn:Qf; [|discriminate]. injection H as <- <-.
    rewrite <- (K i ltac:(lia)) in Q. rewrite (skipn_some_nth _ _ _ Q), Qf. reflexivity.
  - intros H K _ e v. destruct (nth_error s i) as [c|] eqn:Q.
    + rewrite (skipn_some_nth _ _ _ Q) in H. rewrite (skipn_some_nth _ _ _ K). destruct (f c); [|discriminate].
      exfalso. eapply H. reflexivity.
    + apply skipn_nil_nth in K as ->. discriminate.
Qed.
Lemma expr_next_token : everywhere E next_token_node expr.
Proof using.
  apply everywhere_gall; [intros d|]; cbn [gall next_token_node expr_E sum term atom number mul_op add_op l_paren r_paren spaces expr
    chainl1 between seql seqr seq List.length];
  repeat match goal with |- _ /\ _ => split end; try exact I; try reflexivity; try apply star_decided; try apply plus_decided; apply class_decided.
Qed.
Lemma expr_layout_free : everywhere E (fun B q => ~ is_layout B q) expr.
Proof using. apply everywhere_gall; [intros d|]; solve_gall. Qed.
Lemma expr_single_withs : single_withs E expr.
Proof using. apply everywhere_gall; [intros d|]; solve_gall. Qed.
End P.
