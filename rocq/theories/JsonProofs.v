(** The grammar of json.py describes the JSON texts of JsonSpec.v and is LL(1) *)
From Verif Require Import Json JsonSpec LL LangInv DiagProofs PropsDiag PropsRecovery PropsTotal PropsFirst FirstSpec PropsLL Examples.

(** ** dict *)
Lemma chars_eqb_eq a : forall b, chars_eqb a b = true <-> a = b.
Proof.
  induction a as [|x a IH]; intros [|y b]; cbn; split; try discriminate; auto.
  - intros H. apply andb_true_iff in H as [H1 H2]. apply N.eqb_eq in H1. apply IH in H2. congruence.
  - intros H. injection H as -> ->. rewrite N.eqb_refl. apply IH. reflexivity.
Qed.
Lemma dict_set_keys X (d : list (list char * X)) k v :
  map fst (dict_set d k v) = map fst d ++ (if in_dec key_eq_dec k (map fst d) then [] else [k]).
Proof.
  induction d as [|[k' v'] d IH]; [reflexivity|]. cbn [dict_set map fst].
  destruct (chars_eqb k k') eqn:Q.
  - apply chars_eqb_eq in Q as ->. cbn [map fst].
    destruct (in_dec key_eq_dec k' (k' :: map fst d)) as [_|N]; [rewrite app_nil_r; reflexivity|].
    exfalso. apply N. left. reflexivity.
  - cbn [map fst]. rewrite IH. cbn [app]. f_equal. f_equal.
    assert (Hk : k <> k') by (intros ->; rewrite (proj2 (chars_eqb_eq k' k') eq_refl) in Q; discriminate).
    destruct (in_dec key_eq_dec k (map fst d)) as [I|I], (in_dec key_eq_dec k (k' :: map fst d)) as [J|J]; auto.
    + exfalso. apply J. right. exact I.
    + exfalso. destruct J; congruence.
Qed.
Lemma dict_set_in X (d : list (list char * X)) k v : NoDup (map fst d) -> forall k' v',
  In (k', v') (dict_set d k v) <-> (k' = k /\ v' = v) \/ (k' <> k /\ In (k', v') d).
Proof.
  induction d as [|[k0 v0] d IH]; intros Hd k' v'; cbn [dict_set].
  - split.
    + intros [H|[]]. injection H as <- <-. auto.
    + intros [[-> ->]|[_ []]]. left. reflexivity.
  - cbn in Hd. inversion Hd as [|? ? Hn Hd']; subst. destruct (chars_eqb k k0) eqn:Q.
    + apply chars_eqb_eq in Q as ->. split.
      * intros [H|H]; [injection H as <- <-; auto|]. right. split; [|right; auto].
        intros ->. apply Hn. change k0 with (fst (k0, v')). apply in_map. exact H.
      * intros [[-> ->]|[H1 [H2|H2]]]; [left; auto| |right; auto]. injection H2 as <- <-. congruence.
    + assert (Hk : k <> k0) by (intros ->; rewrite (proj2 (chars_eqb_eq k0 k0) eq_refl) in Q; discriminate).
      specialize (IH Hd' k' v'). split.
      * intros [H|H]; [injection H as <- <-; right; split; [auto|left; auto]|].
        apply IH in H as [H|[H1 H2]]; [auto|right; split; [auto|right; auto]].
      * intros [H|[H1 [H2|H2]]]; [right; apply IH; auto|left; auto|right; apply IH; auto].
Qed.
Lemma is_dict_nil X : is_dict [] ([] : list (list char * X)).
Proof.
  split; [reflexivity|]. intros k v. split; [intros []|]. intros (b & a & H & _). destruct b; discriminate.
Qed.
Lemma nodup_keys X (kvs d : list (list char * X)) : is_dict kvs d -> NoDup (map fst d).
Proof. intros [H _]. rewrite H. apply NoDup_rev, NoDup_nodup. Qed.
Lemma is_dict_snoc X (kvs d : list (list char * X)) k v :
  is_dict kvs d -> is_dict (kvs ++ [(k, v)]) (dict_set d k v).
Proof.
  intros Hd. pose proof (nodup_keys _ _ _ Hd) as Hn. destruct Hd as [H1 H2]. split.
  - rewrite dict_set_keys, map_app, rev_app_distr. cbn [map fst rev app nodup].
    assert (HI : In k (map fst d) <-> In k (rev (map fst kvs))).
    { rewrite H1, <- in_rev, nodup_In. reflexivity. }
    destruct (in_dec key_eq_dec k (map fst d)) as [I|I], (in_dec key_eq_dec k (rev (map fst kvs))) as [J|J];
      try tauto.
    + rewrite app_nil_r. exact H1.
    + cbn [rev]. rewrite <- H1. reflexivity.
  - intros k' v'. rewrite dict_set_in by auto. rewrite H2. split.
    + intros [[-> ->]|[Hk (b & a & -> & Ha)]].
      * exists kvs, []. split; auto.
      * exists b, (a ++ [(k, v)]). split; [rewrite <- app_assoc; reflexivity|].
        rewrite map_app, in_app_iff. cbn. intros [H|[H|[]]]; auto.
    + intros (b & a & H & Ha). destruct a as [|[ka va] a _] using rev_ind.
      * apply app_inj_tail in H as [-> H]. injection H as -> ->. auto.
      * right. rewrite app_comm_cons, app_assoc in H. apply app_inj_tail in H as [-> H]. injection H as -> ->.
        rewrite map_app, in_app_iff in Ha. cbn in Ha. split; [intros ->; tauto|]. exists b, a. tauto.
Qed.
Lemma dict_of_is_dict X (kvs : list (list char * X)) : is_dict kvs (dict_of kvs).
Proof.
  induction kvs as [|[k v] kvs IH] using rev_ind; [apply is_dict_nil|].
  unfold dict_of. rewrite fold_left_app. cbn. apply is_dict_snoc, IH.
Qed.
Lemma items_unique X (d d' : list (list char * X)) : NoDup (map fst d) ->
  map fst d = map fst d' -> (forall k v, In (k, v) d -> In (k, v) d') -> d = d'.
Proof.
  revert d'. induction d as [|[k v] d IH]; intros [|[k' v'] d'] Hn Hm Hi; try discriminate; auto.
  cbn in Hm. injection Hm as <- Hm. cbn in Hn. inversion Hn as [|? ? Hk Hn']; subst.
  assert (v' = v) as ->.
  { destruct (Hi k v (or_introl eq_refl)) as [H|H]; [congruence|].
    exfalso. apply Hk. rewrite Hm. change k with (fst (k, v)). apply in_map. exact H. }
  f_equal. apply IH; auto. intros k1 v1 H. destruct (Hi k1 v1 (or_intror H)) as [H'|H']; auto.
  injection H' as <- <-. exfalso. apply Hk. change k with (fst (k, v)). apply in_map. exact H.
Qed.
Lemma is_dict_unique X (kvs d d' : list (list char * X)) : is_dict kvs d -> is_dict kvs d' -> d = d'.
Proof.
  intros H H'. apply items_unique; [eapply nodup_keys; eauto|destruct H, H'; congruence|].
  intros k v Hi. apply H'. apply H. exact Hi.
Qed.

Section P.
Context {F : Type}.
Variable unescape : list char -> list char.
Variable int_of : list char -> Z.
Variable float_of : list char -> F.
Notation E := (json_E unescape int_of float_of).
Notation value := (jvalue (F := F)).
Notation isj := (is_json unescape int_of float_of).
Notation els := (elements unescape int_of float_of).
Notation mems := (members unescape int_of float_of).
Notation scal := (jscalar unescape int_of float_of).
Notation member := (jmember unescape (F := F)).
Notation sent := (sentence E).

(** ** Leaves *)
Lemma punct_sent a w v : sent (punct (String a "")) w v -> w = [v] /\ is_punct a v.
Proof.
  intros H. apply sent_inv in H as [-> H]. split; auto. unfold token_eqb in H. cbn in H.
  apply andb_true_iff in H as [H1 H2]. apply String.eqb_eq in H1. split; auto.
  destruct (tk_value v) as [|x [|]]; cbn in H2; try discriminate.
  - apply andb_true_iff in H2 as [H2 _]. apply N.eqb_eq in H2. subst. reflexivity.
  - apply andb_true_iff in H2 as [_ H2]. discriminate.
Qed.
Lemma sent_punct a t : is_punct a t -> sent (punct (String a "")) [t] t.
Proof.
  intros [H1 H2]. apply la_sym. unfold token_eqb. rewrite H1, H2. cbn. rewrite N.eqb_refl. reflexivity.
Qed.
Lemma token_sent k w v : sent (token_p k) w v -> w = [v] /\ is_kind k v.
Proof.
  intros H. apply sent_inv in H. apply sent_inv in H as [-> H]. split; auto.
  injection H as H. apply String.eqb_eq in H. exact H.
Qed.
Lemma sent_token k t : is_kind k t -> sent (token_p k) [t] t.
Proof. intros <-. apply la_label, la_sat. rewrite String.eqb_refl. reflexivity. Qed.

Lemma scalar_sent w v : sent scal w v -> exists t, w = [t] /\ is_scalar unescape int_of float_of t v.
Proof.
  intros H. unfold jscalar in H.
  apply sent_inv in H as [H|H]; [apply sent_inv in H as [H|H]; [apply sent_inv in H as [H|H]; [apply sent_inv in H as [H|H]|]|]|];
    apply sent_inv in H as (t & H & Hv); apply token_sent in H as [-> H]; exists t; split; auto; injection Hv as <-;
    try (constructor; assumption).
  destruct (chars_eqb (tk_value t) (ascii_chars "true")) eqn:Q.
  - apply chars_eqb_eq in Q. constructor; auto.
  - constructor; auto. intros Hn. apply chars_eqb_eq in Hn. congruence.
Qed.
Lemma sent_scalar t v : is_scalar unescape int_of float_of t v -> sent scal [t] v.
Proof.
  intros H. unfold jscalar. destruct H as [H|H|H|H Hv|H Hv|H].
  - apply la_alt_r. eapply la_fmap; [apply (sent_token _ _ H)|reflexivity].
  - do 4 apply la_alt_l. eapply la_fmap; [apply (sent_token _ _ H)|reflexivity].
  - do 3 apply la_alt_l. apply la_alt_r. eapply la_fmap; [apply (sent_token _ _ H)|reflexivity].
  - do 2 apply la_alt_l. apply la_alt_r. eapply la_fmap; [apply (sent_token _ _ H)|].
    rewrite (proj2 (chars_eqb_eq _ _) Hv). reflexivity.
  - do 2 apply la_alt_l. apply la_alt_r. eapply la_fmap; [apply (sent_token _ _ H)|].
    destruct (chars_eqb (tk_value t) (ascii_chars "true")) eqn:Q; [apply chars_eqb_eq in Q; contradiction|reflexivity].
  - apply la_alt_l, la_alt_r. eapply la_fmap; [apply (sent_token _ _ H)|reflexivity].
Qed.

(** ** sep_by and between *)
Lemma sepby_inv A (p : gram token json_V A) a w vs :
  sent (sep_by p (punct (String a ""))) w vs ->
  (w = [] /\ vs = []) \/
  exists w1 w2 v l, w = w1 ++ w2 /\ vs = v :: l /\ sent p w1 v /\ sent (GMany (seqr (punct (String a "")) p)) w2 l.
Proof.
  intros H. apply sent_inv in H as (o & H & Hv). apply sent_inv in H as [[-> ->]|(x & -> & H)]; injection Hv as <-.
  - left. auto.
  - apply sent_inv in H as (w1 & w2 & v1 & l & -> & -> & H1 & H2). right. exists w1, w2, v1, l. auto.
Qed.
Lemma many_item_inv A (p : gram token json_V A) a w vs :
  sent (GMany (seqr (punct (String a "")) p)) w vs ->
  (w = [] /\ vs = []) \/
  exists c w1 w2 v l, w = c :: w1 ++ w2 /\ vs = v :: l /\ is_punct a c /\ sent p w1 v /\
    sent (GMany (seqr (punct (String a "")) p)) w2 l.
Proof.
  intros H. apply sent_inv in H as [H|(w1 & w2 & v1 & l & -> & -> & H1 & H2)]; [auto|].
  apply sent_inv in H1 as (u1 & u2 & x1 & x2 & -> & -> & H3 & H4). apply punct_sent in H3 as [-> H3].
  right. exists x1, u2, w2, x2, l. auto.
Qed.
Lemma between_inv A B (p : gram token json_V A) (f : A -> out B) a b w v :
  sent (between (punct (String a "")) (punct (String b "")) (GFmap p f)) w v ->
  exists t w' x t', w = t :: w' ++ [t'] /\ is_punct a t /\ is_punct b t' /\ sent p w' x /\ f x = Ret v.
Proof.
  intros H. apply sent_inv in H as (w1 & w2 & v1 & v2 & -> & -> & H1 & H2).
  apply sent_inv in H2 as (w3 & w4 & v3 & v4 & -> & -> & H2 & H4).
  apply sent_inv in H2 as (x & H2 & Hx). apply punct_sent in H1 as [-> H1], H4 as [-> H4].
  exists v1, w3, x, v4. auto.
Qed.
Lemma sent_between A B (p : gram token json_V A) (f : A -> out B) a b t w x t' v :
  is_punct a t -> is_punct b t' -> sent p w x -> f x = Ret v ->
  sent (between (punct (String a "")) (punct (String b "")) (GFmap p f)) (t :: w ++ [t']) v.
Proof.
  intros H1 H2 H3 H4.
  apply (se_seq E _ _ _ (punct (String a "")) (seql (GFmap p f) (punct (String b ""))) (fun _ r => r) [t] (w ++ [t']) t v);
    [apply sent_punct; auto|].
  apply (se_seq E _ _ _ (GFmap p f) (punct (String b "")) (fun l _ => l) w [t'] v t'); [|apply sent_punct; auto].
  eapply la_fmap; eauto.
Qed.
Lemma sent_sepby A (p : gram token json_V A) a w1 w2 v l :
  sent p w1 v -> sent (GMany (seqr (punct (String a "")) p)) w2 l ->
  sent (sep_by p (punct (String a ""))) (w1 ++ w2) (v :: l).
Proof.
  intros H1 H2. eapply la_fmap with (v := Some (v, l)); [|reflexivity]. apply la_maybe_some.
  apply (se_seq E _ _ _ p (GMany (seqr (punct (String a "")) p)) (fun l r => (l, r)) w1 w2 v l); auto.
Qed.
Lemma sent_sepby_nil A (p : gram token json_V A) a : sent (sep_by p (punct (String a ""))) [] [].
Proof. eapply la_fmap; [apply la_maybe_none|reflexivity]. Qed.
Lemma sent_item A (p : gram token json_V A) a c w1 w2 v l :
  is_punct a c -> sent p w1 v -> sent (GMany (seqr (punct (String a "")) p)) w2 l ->
  sent (GMany (seqr (punct (String a "")) p)) (c :: w1 ++ w2) (v :: l).
Proof.
  intros Hc H1 H2. change (c :: w1 ++ w2) with (([c] ++ w1) ++ w2). apply se_many; auto.
  apply (se_seq E _ _ _ (punct (String a "")) p (fun _ r => r) [c] w1 c v); auto. apply sent_punct; auto.
Qed.
Lemma member_inv w k v : sent member w (k, v) ->
  exists t c w', w = t :: c :: w' /\ is_kind "string" t /\ is_punct ":" c /\ k = unescape (tk_value t) /\ sent value w' v.
Proof.
  intros H. apply sent_inv in H as (w1 & w2 & v1 & v2 & -> & Hm & H1 & H2). injection Hm as -> ->.
  apply sent_inv in H1 as (w3 & w4 & v3 & v4 & -> & -> & H3 & H4). apply punct_sent in H4 as [-> H4].
  apply sent_inv in H3. apply sent_inv in H3 as (t & H3 & Ht). apply token_sent in H3 as [-> H3]. injection Ht as <-.
  exists t, v4, w2. auto.
Qed.
Lemma sent_member t c w v : is_kind "string" t -> is_punct ":" c -> sent value w v ->
  sent member (t :: c :: w) (unescape (tk_value t), v).
Proof.
  intros H1 H2 H3.
  apply (se_seq E _ _ _ (seql (GRecoverWith (jstring unescape) (ascii_chars "a") _) (punct ":")) value (fun l r => (l, r))
    [t; c] w (unescape (tk_value t)) v); auto.
  apply (se_seq E _ _ _ (GRecoverWith (jstring unescape) (ascii_chars "a") _) (punct ":") (fun l _ => l)
    [t] [c] (unescape (tk_value t)) c); [|apply sent_punct; auto].
  apply la_with. eapply la_fmap; [apply (sent_token _ _ H1)|reflexivity].
Qed.

(** ** the parser describes the texts *)
Lemma json_sound : forall n w v, List.length w < n -> sent value w v -> isj w v.
Proof.
  induction n as [|n IH]; intros w v Hn H; [lia|].
  apply sent_inv in H. apply sent_inv in H. apply sent_inv in H as [H|H]; [apply sent_inv in H as [H|H]|].
  - apply sent_inv in H. apply scalar_sent in H as (t & -> & H). constructor. exact H.
  - apply sent_inv in H. apply sent_inv in H.
    apply between_inv in H as (t & w' & x & t' & -> & H1 & H2 & H & Hv). injection Hv as <-.
    rewrite <- app_assoc in Hn || idtac. cbn in Hn. rewrite app_length in Hn. cbn in Hn.
    apply sepby_inv in H as [[-> ->]|(w1 & w2 & [k v] & l & -> & -> & H & HM)].
    + apply json_dict_empty; auto.
    + apply json_dict_some with (kvs := (k, v) :: l); auto; [|apply dict_of_is_dict].
      assert (M : forall w2, List.length w2 < n -> forall w1 l k v, sent member w1 (k, v) -> List.length w1 < n ->
        sent (GMany (seqr (punct ",") member)) w2 l -> mems (w1 ++ w2) ((k, v) :: l)).
      { clear - IH. intros w2. induction w2 as [w2 IHw] using (induction_ltof1 _ (@List.length token)).
        unfold ltof in IHw. intros Hl w1 l k v H Hw HM.
        apply member_inv in H as (t & c & w' & -> & A1 & A2 & -> & A3).
        apply many_item_inv in HM as [[-> ->]|(c' & u1 & u2 & [k' v'] & l' & -> & -> & B1 & B2 & B3)].
        - rewrite app_nil_r. apply me_one; auto. apply IH; auto. cbn in Hw. lia.
        - cbn [app]. apply me_more; auto; [apply IH; auto; cbn in Hw; lia|].
          cbn in Hl. rewrite app_length in Hl. apply IHw; auto; try (cbn; rewrite ?app_length; lia). }
      rewrite app_length in Hn. apply M; auto; lia.
  - apply sent_inv in H. apply sent_inv in H.
    apply between_inv in H as (t & w' & x & t' & -> & H1 & H2 & H & Hv). injection Hv as <-.
    cbn in Hn. rewrite app_length in Hn. cbn in Hn.
    apply sepby_inv in H as [[-> ->]|(w1 & w2 & v & l & -> & -> & H & HM)].
    + apply json_list_empty; auto.
    + apply json_list_some; auto.
      assert (M : forall w2, List.length w2 < n -> forall w1 l v, sent value w1 v -> List.length w1 < n ->
        sent (GMany (seqr (punct ",") value)) w2 l -> els (w1 ++ w2) (v :: l)).
      { clear - IH. intros w2. induction w2 as [w2 IHw] using (induction_ltof1 _ (@List.length token)).
        unfold ltof in IHw. intros Hl w1 l v H Hw HM.
        apply many_item_inv in HM as [[-> ->]|(c' & u1 & u2 & v' & l' & -> & -> & B1 & B2 & B3)].
        - rewrite app_nil_r. apply el_one. apply IH; auto.
        - apply el_more; auto. cbn in Hl. rewrite app_length in Hl.
          apply IHw; auto; try (cbn; rewrite ?app_length; lia). }
      rewrite app_length in Hn. apply M; auto; lia.
Qed.

Scheme is_json_ind2 := Minimality for is_json Sort Prop
  with elements_ind2 := Minimality for elements Sort Prop
  with members_ind2 := Minimality for members Sort Prop.
Combined Scheme json_mutind from is_json_ind2, elements_ind2, members_ind2.

Lemma sent_dict t w x t' : is_punct "{" t -> is_punct "}" t' -> sent (sep_by member (punct ",")) w x ->
  sent value (t :: w ++ [t']) (JDict (dict_of x)).
Proof.
  intros H1 H2 H. refine (la_delay E 0 _ _ _). apply la_label, la_alt_l, la_alt_r, la_recover, la_label.
  eapply sent_between; eauto.
Qed.
Lemma sent_list t w x t' : is_punct "[" t -> is_punct "]" t' -> sent (sep_by value (punct ",")) w x ->
  sent value (t :: w ++ [t']) (JList x).
Proof.
  intros H1 H2 H. refine (la_delay E 0 _ _ _). apply la_label, la_alt_r, la_recover, la_label.
  eapply sent_between; eauto.
Qed.

Lemma json_complete_all :
  (forall w v, isj w v -> sent value w v) /\
  (forall w vs, els w vs -> exists w1 w2 v l, w = w1 ++ w2 /\ vs = v :: l /\ sent value w1 v /\
     sent (GMany (seqr (punct ",") value)) w2 l) /\
  (forall w kvs, mems w kvs -> exists w1 w2 v l, w = w1 ++ w2 /\ kvs = v :: l /\ sent member w1 v /\
     sent (GMany (seqr (punct ",") member)) w2 l).
Proof.
  apply (json_mutind F unescape int_of float_of).
  - intros t v H. refine (la_delay E 0 _ _ _). apply la_label, la_alt_l, la_alt_l, la_with. apply sent_scalar. exact H.
  - intros t t' H1 H2. apply (sent_list t [] [] t'); auto. apply sent_sepby_nil.
  - intros t w vs t' H1 _ (w1 & w2 & v & l & -> & -> & H & HM) H2.
    apply sent_list; auto. apply sent_sepby; auto.
  - intros t t' H1 H2. apply (sent_dict t [] [] t'); auto. apply sent_sepby_nil.
  - intros t w kvs d t' H1 _ (w1 & w2 & v & l & -> & -> & H & HM) H2 Hd.
    rewrite (is_dict_unique _ _ _ _ Hd (dict_of_is_dict _ _)). apply sent_dict; auto. apply sent_sepby; auto.
  - intros w v _ H. exists w, [], v, []. rewrite app_nil_r. repeat split; auto. constructor.
  - intros w v c w' vs _ H Hc _ (w1 & w2 & v' & l & -> & -> & H' & HM).
    exists w, (c :: w1 ++ w2), v, (v' :: l). repeat split; auto. apply sent_item; auto.
  - intros k c w v H1 H2 _ H. exists (k :: c :: w), [], (unescape (tk_value k), v), [].
    rewrite app_nil_r. repeat split; [apply sent_member; auto|constructor].
  - intros k c w v c' w' kvs H1 H2 _ H H3 _ (w1 & w2 & v' & l & -> & -> & H' & HM).
    exists (k :: c :: w), (c' :: w1 ++ w2), (unescape (tk_value k), v), (v' :: l).
    repeat split; [apply sent_member; auto|apply sent_item; auto].
Qed.
Lemma json_sentence w v : sent value w v <-> isj w v.
Proof. split; [apply (json_sound (S (List.length w))); lia|apply json_complete_all]. Qed.

End P.
