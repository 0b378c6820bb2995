(** The parser of README.md describes the expressions of ReadmeSpec.v *)
From Verif Require Import Readme ReadmeSpec LL LangInv DiagProofs PropsDiag PropsRecovery PropsTotal PropsFirst FirstSpec PropsLL Examples.
From Coq Require Import Lia.
Local Open Scope N_scope.

(** ** character classes *)
Lemma run_len_all f w rest : Forall (fun c => f c = true) w ->
  (forall c, hd_error rest = Some c -> f c = false) -> run_len f (w ++ rest) = List.length w.
Proof.
  intros Hw Hr. induction Hw as [|c w Hc Hw IH]; cbn.
  - destruct rest as [|c rest]; [reflexivity|]. cbn. rewrite (Hr c eq_refl). reflexivity.
  - rewrite Hc. f_equal. exact IH.
Qed.
Lemma run_len_le f s : (run_len f s <= List.length s)%nat.
Proof. induction s as [|c s IH]; cbn; [lia|]. destruct (f c); cbn; lia. Qed.
Lemma run_all f s : Forall (fun c => f c = true) (firstn (run_len f s) s).
Proof. induction s as [|c s IH]; cbn; [constructor|]. destruct (f c) eqn:Q; cbn; constructor; auto. Qed.
Lemma skipn_before (b w : list char) : skipn (List.length b) (b ++ w) = w.
Proof. induction b as [|x b IH]; cbn; auto. Qed.
Lemma firstn_len (w r : list char) : firstn (List.length w) (w ++ r) = w.
Proof. induction w as [|x w IH]; cbn; [reflexivity|]. f_equal. exact IH. Qed.

Lemma star_wf f s pos e v : (pos <= List.length s)%nat -> re_star f s pos = Some (e, v) -> (pos <= e <= List.length s)%nat.
Proof.
  unfold re_star. intros H Q. injection Q as <- _. pose proof (run_len_le f (skipn pos s)). rewrite skipn_length in *. lia.
Qed.
Lemma plus_wf f s pos e v : (pos <= List.length s)%nat -> re_plus f s pos = Some (e, v) -> (pos <= e <= List.length s)%nat.
Proof.
  unfold re_plus. intros H Q. pose proof (run_len_le f (skipn pos s)) as L. rewrite skipn_length in L.
  destruct (run_len f (skipn pos s)); [discriminate|]. injection Q as <- _. lia.
Qed.
Lemma class_wf f s pos e v : (pos <= List.length s)%nat -> re_class f s pos = Some (e, v) -> (pos <= e <= List.length s)%nat.
Proof.
  unfold re_class. intros H Q. destruct (skipn pos s) as [|c l] eqn:Hs; [discriminate|].
  pose proof (f_equal (@List.length _) Hs) as L. rewrite skipn_length in L. cbn in L.
  destruct (f c); [|discriminate]. injection Q as <- _. lia.
Qed.

Section Proofs.
Variable space digit : char -> bool.
Variable dval : char -> Z.
Notation E := (expr_E space digit dval).
Notation sp := (spaces space).
Notation num := (number space digit dval).
Notation atm := (atom space digit dval).
Notation trm := (term space digit dval).
Notation sm := (sum space digit dval).
Notation mulp := (mul_op space).
Notation addp := (add_op space).
Notation lp := (l_paren space).
Notation rp := (r_paren space).
Notation sent := (sentence E).
Notation issum := (is_sum space digit dval).
Notation isterm := (is_term space digit dval).
Notation isatom := (is_atom space digit dval).
Notation blank := (blank space).

Lemma star_sent f w v : sent (GRegexp (re_star f)) w v <-> v = w /\ Forall (fun c => f c = true) w.
Proof.
  split.
  - intros H. apply lang_inv in H as (s & i & e & H & Hw). unfold re_star in H. injection H as <- <-.
    apply map_inl_inj in Hw. rewrite Nat.add_comm, Nat.add_sub in Hw. subst w. split; [reflexivity|apply run_all].
  - intros [-> H]. pose proof (la_re E _ (re_star f) w 0%nat (List.length w) w) as L.
    unfold sentence. rewrite Nat.sub_0_r, firstn_all in L. apply L. unfold re_star. cbn.
    pose proof (run_len_all f w [] H) as R. rewrite app_nil_r in R. rewrite R by discriminate.
    rewrite firstn_all. reflexivity.
Qed.
Lemma plus_sent f w v : sent (GRegexp (re_plus f)) w v <-> v = w /\ w <> [] /\ Forall (fun c => f c = true) w.
Proof.
  split.
  - intros H. apply lang_inv in H as (s & i & e & H & Hw). unfold re_plus in H.
    pose proof (run_all f (skipn i s)) as R. pose proof (run_len_le f (skipn i s)) as L.
    destruct (run_len f (skipn i s)) as [|n] eqn:Q; [discriminate|]. injection H as <- <-.
    apply map_inl_inj in Hw. rewrite Nat.add_comm, Nat.add_sub in Hw. subst w. split; [reflexivity|]. split; [|exact R].
    intros H. apply (f_equal (@List.length _)) in H. change (List.length (@firstn char (S n) (skipn i s)) = 0%nat) in H.
    rewrite firstn_length in H. lia.
  - intros (-> & Hn & H). pose proof (la_re E _ (re_plus f) w 0%nat (List.length w) w) as L.
    unfold sentence. rewrite Nat.sub_0_r, firstn_all in L. apply L. unfold re_plus. cbn [skipn].
    pose proof (run_len_all f w [] H) as R. rewrite app_nil_r in R. rewrite R by discriminate.
    destruct w as [|c w]; [congruence|]. cbn [List.length]. rewrite (firstn_all (c :: w) : firstn (S (List.length w)) (c :: w) = c :: w). reflexivity.
Qed.
Lemma class_sent f w v : sent (GRegexp (re_class f)) w v <-> exists c, f c = true /\ w = [c] /\ v = [c].
Proof.
  split.
  - intros H. apply lang_inv in H as (s & i & e & H & Hw). unfold re_class in H.
    destruct (skipn i s) as [|c l] eqn:Q; [discriminate|]. destruct (f c) eqn:Hc; [|discriminate]. injection H as <- <-.
    apply map_inl_inj in Hw. rewrite Nat.add_comm, Nat.add_sub in Hw. cbn in Hw. subst w. eauto.
  - intros (c & Hc & -> & ->). pose proof (la_re E _ (re_class f) [c] 0%nat 1%nat [c]) as L.
    apply L. unfold re_class. cbn. rewrite Hc. reflexivity.
Qed.

Lemma seql_sent A B (p : gram char expr_V A) (q : gram char expr_V B) w v :
  sent (seql p q) w v <-> exists w1 w2 v2, w = w1 ++ w2 /\ sent p w1 v /\ sent q w2 v2.
Proof.
  split.
  - intros H. apply sent_inv in H as (w1 & w2 & v1 & v2 & -> & -> & H1 & H2). eauto 6.
  - intros (w1 & w2 & v2 & -> & H1 & H2). apply (se_seq E _ _ _ p q (fun l _ => l) w1 w2 v v2 H1 H2).
Qed.
Lemma tok_sent A (p : gram char expr_V A) w v :
  sent (seql p sp) w v <-> exists x b, w = x ++ b /\ sent p x v /\ blank b.
Proof.
  rewrite seql_sent. split.
  - intros (w1 & w2 & v2 & -> & H1 & H2). apply star_sent in H2 as [_ H2]. eauto.
  - intros (x & b & -> & H1 & H2). exists x, b, b. split; [reflexivity|]. split; [exact H1|]. apply star_sent. auto.
Qed.
Lemma fmap_sent A B (p : gram char expr_V A) (f : A -> out B) w v :
  sent (GFmap p f) w v <-> exists u, sent p w u /\ f u = Ret v.
Proof. split; [intros H; apply sent_inv in H; exact H|]. intros (u & H1 & H2). eapply la_fmap; eauto. Qed.

Lemma numeral_of x : x <> [] -> Forall (fun c => digit c = true) x -> numeral digit dval x (int_of dval x).
Proof.
  unfold int_of. induction x as [|c x IH] using rev_ind; [congruence|]. intros _ H. apply Forall_app in H as [H1 H2].
  inversion H2; subst. rewrite fold_left_app. cbn [fold_left]. destruct x as [|d x].
  - cbn [fold_left app]. replace (10 * 0 + dval c)%Z with (dval c) by lia. constructor; auto.
  - apply nu_more; auto. apply IH; [discriminate|auto].
Qed.
Lemma numeral_inv x z : numeral digit dval x z -> x <> [] /\ Forall (fun c => digit c = true) x /\ z = int_of dval x.
Proof.
  unfold int_of. induction 1 as [c Hc|x z c H (IH1 & IH2 & IH3) Hc].
  - split; [discriminate|]. split; [constructor; auto|]. cbn [fold_left]. lia.
  - split; [destruct x; discriminate|]. split; [apply Forall_app; auto|]. rewrite fold_left_app, <- IH3. reflexivity.
Qed.
Lemma number_sent w v : sent num w v <-> exists x b, w = x ++ b /\ numeral digit dval x v /\ blank b.
Proof.
  unfold number. rewrite tok_sent. split.
  - intros (x & b & -> & H & Hb). apply fmap_sent in H as (u & H & Q). injection Q as <-.
    apply plus_sent in H as (-> & H1 & H2). exists x, b. split; [reflexivity|]. split; [apply numeral_of; auto|auto].
  - intros (x & b & -> & H & Hb). apply numeral_inv in H as (H1 & H2 & ->). exists x, b. split; [reflexivity|].
    split; [|exact Hb]. apply fmap_sent. exists x. split; [apply plus_sent; auto|reflexivity].
Qed.
Lemma op_sent f w o : sent (seql (GFmap (GRegexp (re_class f)) op_action) sp) w o <->
  exists c b, w = c :: b /\ f c = true /\ op_action [c] = Ret o /\ blank b.
Proof.
  rewrite tok_sent. split.
  - intros (x & b & -> & H & Hb). apply fmap_sent in H as (u & H & Q). apply class_sent in H as (c & Hc & -> & ->).
    exists c, b. auto.
  - intros (c & b & -> & Hc & Ho & Hb). exists [c], b. split; [reflexivity|]. split; [|exact Hb].
    apply fmap_sent. exists [c]. split; [apply class_sent; eauto|exact Ho].
Qed.
Lemma mul_sent w o : sent mulp w o <-> exists b, w = 42 :: b /\ blank b /\ o = (fun a b => Ret (a * b)%Z).
Proof.
  unfold mul_op. rewrite op_sent. split.
  - intros (c & b & -> & Hc & Ho & Hb). apply N.eqb_eq in Hc as ->. cbn in Ho. injection Ho as <-. eauto.
  - intros (b & -> & Hb & ->). exists 42, b. auto.
Qed.
Lemma add_sent w o : sent addp w o <-> exists b, blank b /\
  ((w = 43 :: b /\ o = (fun a b => Ret (a + b)%Z)) \/ (w = 45 :: b /\ o = (fun a b => Ret (a - b)%Z))).
Proof.
  unfold add_op. rewrite op_sent. split.
  - intros (c & b & -> & Hc & Ho & Hb). exists b. split; [exact Hb|]. apply orb_true_iff in Hc as [Hc|Hc]; apply N.eqb_eq in Hc as ->;
      cbn in Ho; injection Ho as <-; auto.
  - intros (b & Hb & [[-> ->]|[-> ->]]); [exists 43, b|exists 45, b]; auto.
Qed.
Lemma lit_sent k l w v : sent (GLiteral N.eqb [k] l) w v <-> w = [k] /\ v = [k].
Proof.
  split.
  - intros H. apply lang_inv in H as (-> & y & Hy & H). apply map_inl_inj in Hy. subst y.
    inversion H as [|a c ? ? H1 H2]; subst. inversion H2; subst. apply N.eqb_eq in H1 as ->. auto.
  - intros [-> ->]. refine (la_lit E N.eqb [k] l [k] _). constructor; [apply N.eqb_refl|constructor].
Qed.
Lemma lp_sent w v : sent lp w v <-> exists b, w = 40 :: b /\ blank b /\ v = [40].
Proof.
  unfold l_paren. rewrite tok_sent. split.
  - intros (x & b & -> & H & Hb). apply lit_sent in H as [-> ->]. exists b. auto.
  - intros (b & -> & Hb & ->). exists [40], b. split; [reflexivity|]. split; [apply lit_sent; auto|auto].
Qed.
Lemma rp_sent w v : sent rp w v <-> exists b, w = 41 :: b /\ blank b /\ v = [41].
Proof.
  unfold r_paren. rewrite tok_sent. split.
  - intros (x & b & -> & H & Hb). apply lit_sent in H as [-> ->]. exists b. auto.
  - intros (b & -> & Hb & ->). exists [41], b. split; [reflexivity|]. split; [apply lit_sent; auto|auto].
Qed.
Lemma paren_sent w v : sent (between lp rp expr) w v <->
  exists b s b', w = 40 :: b ++ s ++ 41 :: b' /\ blank b /\ blank b' /\ sent expr s v.
Proof.
  unfold between. split.
  - intros H. apply sent_inv in H as (w1 & w2 & v1 & v2 & -> & -> & H1 & H2). apply lp_sent in H1 as (b & -> & Hb & _).
    apply seql_sent in H2 as (s & w3 & v3 & -> & H2 & H3). apply rp_sent in H3 as (b' & -> & Hb' & _).
    exists b, s, b'. auto.
  - intros (b & s & b' & -> & Hb & Hb' & H).
    apply (se_seq E _ _ _ lp (seql expr rp) (fun _ r => r) (40 :: b) (s ++ 41 :: b') [40] v); [apply lp_sent; eauto|].
    apply seql_sent. exists s, (41 :: b'), [41]. split; [reflexivity|]. split; [exact H|]. apply rp_sent. eauto.
Qed.
Lemma alt_sent A (p q : gram char expr_V A) w v : sent (GAlt p q) w v <-> sent p w v \/ sent q w v.
Proof. split; [intros H; apply sent_inv in H; exact H|]. intros [H|H]; [apply la_alt_l|apply la_alt_r]; exact H. Qed.
Lemma many_snoc A (p : gram char expr_V A) l : forall w w' x,
  sent (GMany p) w l -> sent p w' x -> sent (GMany p) (w ++ w') (l ++ [x]).
Proof.
  induction l as [|y l IH]; intros w w' x H Hx; apply sent_inv in H as [[-> Hl]|(w1 & w2 & v1 & l' & -> & Hl & H1 & H2)];
    try discriminate.
  - cbn [app]. pose proof (se_many E _ p w' [] x [] Hx (la_many_nil E _ p)) as K. rewrite app_nil_r in K. exact K.
  - injection Hl as <- <-. rewrite <- app_assoc. cbn [app]. apply se_many; auto.
Qed.
Lemma loop_snoc (l : list ((Z -> Z -> out Z) * Z)) op x : forall a b,
  chainl1_loop a l = Ret b -> chainl1_loop a (l ++ [(op, x)]) = op b x.
Proof.
  induction l as [|[o y] l IH]; intros a b H; cbn in *.
  - injection H as ->. destruct (op b x); reflexivity.
  - destruct (o a y) as [c| |]; cbn in *; try discriminate. apply IH. exact H.
Qed.
(** a chain is left associative *)
Section Chain.
Variable arg : gram char expr_V Z.
Variable op : gram char expr_V (Z -> Z -> out Z).
Lemma chain_one w v : sent arg w v -> sent (chainl1 arg op) w v.
Proof.
  intros H. apply fmap_sent. exists (v, []). split; [|reflexivity].
  pose proof (se_seq E _ _ _ arg (GMany (seq op arg)) (fun l r => (l, r)) w [] v [] H (la_many_nil E _ _)) as K.
  rewrite app_nil_r in K. exact K.
Qed.
Lemma chain_more w a wo o w' b c : sent (chainl1 arg op) w a -> sent op wo o -> sent arg w' b -> o a b = Ret c ->
  sent (chainl1 arg op) (w ++ wo ++ w') c.
Proof.
  intros H Ho Hb Q. apply fmap_sent in H as ([x l] & H & Hl). apply sent_inv in H as (w1 & w2 & v1 & v2 & -> & Hx & H1 & H2).
  injection Hx as <- <-. apply fmap_sent. exists (x, l ++ [(o, b)]). split.
  - rewrite <- app_assoc. apply (se_seq E _ _ _ arg (GMany (seq op arg)) (fun l r => (l, r)) w1 (w2 ++ wo ++ w') x (l ++ [(o, b)]) H1).
    apply many_snoc; [exact H2|]. apply (se_seq E _ _ _ op arg (fun l r => (l, r)) wo w' o b Ho Hb).
  - unfold chainl1_reducer in *. cbn [fst snd] in *. rewrite (loop_snoc l o b x a Hl). exact Q.
Qed.
Lemma chain_inv (P : list char -> Z -> Prop) w v n : (List.length w <= n)%nat ->
  (forall w v, (List.length w <= n)%nat -> sent arg w v -> P w v) ->
  (forall w a wo o w' b c, (List.length w' <= n)%nat -> P w a -> sent op wo o -> sent arg w' b -> o a b = Ret c -> P (w ++ wo ++ w') c) ->
  sent (chainl1 arg op) w v -> P w v.
Proof.
  intros Hn H1 H2 H. apply fmap_sent in H as ([x l] & H & Hl). apply sent_inv in H as (w1 & w2 & v1 & v2 & -> & Hx & Ha & Hm).
  injection Hx as <- <-. rewrite app_length in Hn. unfold chainl1_reducer in Hl. cbn [fst snd] in Hl.
  assert (K : P w1 x) by (apply H1; [lia|exact Ha]). clear Ha. assert (Hw2 : (List.length w2 <= n)%nat) by lia. clear Hn.
  revert w1 x w2 Hl Hm K Hw2. induction l as [|[o y] l IH]; intros w1 x w2 Hl Hm K Hw2.
  - cbn in Hl. injection Hl as <-. apply sent_inv in Hm as [[-> _]|(? & ? & ? & ? & _ & Q & _)]; [|discriminate].
    rewrite app_nil_r. exact K.
  - cbn in Hl. destruct (o x y) as [c| |] eqn:Q; try discriminate. cbn in Hl.
    apply sent_inv in Hm as [[_ Hm]|(w3 & w4 & v1 & l' & -> & Hm & Hi & Hr)]; [discriminate|]. injection Hm as <- <-.
    apply sent_inv in Hi as (w5 & w6 & v3 & v4 & -> & Hi & Ho & Hb). injection Hi as <- <-.
    rewrite !app_length in Hw2. rewrite app_assoc. apply (IH _ c); auto; [|lia]. eapply H2; eauto. lia.
Qed.
End Chain.

Lemma atom_is (n : nat) : (forall s v, (List.length s < n)%nat -> sent expr s v -> issum s v) ->
  forall w v, (List.length w <= n)%nat -> sent atm w v -> isatom w v.
Proof.
  intros IH w v Hn H. apply alt_sent in H as [H|H].
  - apply number_sent in H as (x & b & -> & Hx & Hb). constructor; auto.
  - apply paren_sent in H as (b & s & b' & -> & Hb & Hb' & H). constructor; auto. apply IH; [|exact H].
    pose proof (app_length b (s ++ 41 :: b')) as L1. pose proof (app_length s (41 :: b')) as L2. unfold char in *; cbn [List.length] in *; lia.
Qed.
Lemma term_is (n : nat) : (forall s v, (List.length s < n)%nat -> sent expr s v -> issum s v) ->
  forall w v, (List.length w <= n)%nat -> sent trm w v -> isterm w v.
Proof.
  intros IH w v Hn H. eapply chain_inv; [exact Hn| | |exact H].
  - intros w' v' Hw H'. apply te_atom. eapply atom_is; eauto.
  - intros w1 a wo o w2 b c Hw K Ho Hb Q. apply mul_sent in Ho as (bl & -> & Hbl & ->). injection Q as <-.
    cbn [app]. apply te_times; auto. eapply atom_is; eauto.
Qed.
Lemma sum_is (n : nat) : (forall s v, (List.length s < n)%nat -> sent expr s v -> issum s v) ->
  forall w v, (List.length w <= n)%nat -> sent sm w v -> issum w v.
Proof.
  intros IH w v Hn H. eapply chain_inv; [exact Hn| | |exact H].
  - intros w' v' Hw H'. apply su_term. eapply term_is; eauto.
  - intros w1 a wo o w2 b c Hw K Ho Hb Q. apply add_sent in Ho as (bl & Hbl & [[-> ->]|[-> ->]]); injection Q as <-;
      cbn [app]; [apply su_plus|apply su_minus]; auto; eapply term_is; eauto.
Qed.
Lemma expr_is : forall n w v, (List.length w < n)%nat -> sent expr w v -> issum w v.
Proof.
  induction n as [|n IH]; intros w v Hn H; [lia|]. apply sent_inv in H.
  eapply sum_is; [|reflexivity|exact H]. intros s v' Hs. apply IH. lia.
Qed.
Scheme is_sum_min := Minimality for is_sum Sort Prop
  with is_term_min := Minimality for is_term Sort Prop
  with is_atom_min := Minimality for is_atom Sort Prop.
Combined Scheme expr_mutind from is_sum_min, is_term_min, is_atom_min.
Lemma is_expr :
  (forall w v, issum w v -> sent sm w v) /\ (forall w v, isterm w v -> sent trm w v) /\ (forall w v, isatom w v -> sent atm w v).
Proof.
  apply expr_mutind.
  - intros t a _ H. apply chain_one. exact H.
  - intros s a w t b _ H1 Hw _ H2.
    apply (chain_more trm addp s a (43 :: w) (fun a b => Ret (a + b)%Z) t b); auto. apply add_sent. exists w. auto.
  - intros s a w t b _ H1 Hw _ H2.
    apply (chain_more trm addp s a (45 :: w) (fun a b => Ret (a - b)%Z) t b); auto. apply add_sent. exists w. auto.
  - intros x a _ H. apply chain_one. exact H.
  - intros t a w x b _ H1 Hw _ H2.
    apply (chain_more atm mulp t a (42 :: w) (fun a b => Ret (a * b)%Z) x b); auto. apply mul_sent. exists w. auto.
  - intros x a w Hx Hw. apply alt_sent. left. apply number_sent. eauto.
  - intros w s a w' Hw _ H Hw'. apply alt_sent. right. apply paren_sent. exists w, s, w'.
    repeat (split; [auto; fail|]). refine (la_delay E 0 _ _ _). exact H.
Qed.
Lemma expr_sentence w v : sent expr w v <-> issum w v.
Proof.
  split; [apply (expr_is (S (List.length w))); lia|]. intros H. refine (la_delay E 0 _ _ _). apply is_expr. exact H.
Qed.
End Proofs.
