(** C75 for the JSON parser of the test-suite: a forgotten closing bracket or colon *)
From Verif Require Import Fuel ApiSpec ApiProofs Locations Json JsonSpec JsonProofs JsonLL PropsJson LL LangInv PropsTotal FirstSpec PropsFirst PropsLL Examples
  Mend PropsMend Miss PropsMiss.
Import ListNotations.

Section P.
Context {F : Type}.
Variable unescape : list char -> list char.
Variable int_of : list char -> Z.
Variable float_of : list char -> F.
Notation E := (json_E unescape int_of float_of).
Notation is_json := (is_json unescape int_of float_of).
Notation value := (jvalue (F := F)).
Notation top := (json_parser (F := F)).
Notation sent := (sentence E).

(** positions of tokens do not matter *)
Definition same_token (t t' : token) : Prop := tk_kind t = tk_kind t' /\ tk_value t = tk_value t'.
Lemma same_punct a t t' : same_token t t' -> is_punct a t -> is_punct a t'.
Proof. intros [H1 H2] [K1 K2]. split; congruence. Qed.
Lemma same_kind k t t' : same_token t t' -> is_kind k t -> is_kind k t'.
Proof. intros [H1 H2] K. unfold is_kind in *. congruence. Qed.
Lemma same_scalar t t' v : same_token t t' -> is_scalar unescape int_of float_of t v -> is_scalar unescape int_of float_of t' v.
Proof.
  intros H K. pose proof H as [_ Hv].
  destruct K as [K|K|K|K K'|K K'|K]; apply (same_kind _ _ _ H) in K; rewrite ?Hv in *; constructor; auto.
Qed.
Lemma Forall2_snoc {X Y} (R : X -> Y -> Prop) a x l : Forall2 R (a ++ [x]) l -> exists b y, l = b ++ [y] /\ Forall2 R a b /\ R x y.
Proof. intros H. apply Forall2_app_inv_l in H as (b & c & H1 & H2 & ->). inversion H2 as [|? y ? ? Hy H3]. inversion H3. subst. eauto. Qed.
Lemma json_same :
  (forall w v, is_json w v -> forall w', Forall2 same_token w w' -> is_json w' v) /\
  (forall w l, elements unescape int_of float_of w l -> forall w', Forall2 same_token w w' -> elements unescape int_of float_of w' l) /\
  (forall w l, members unescape int_of float_of w l -> forall w', Forall2 same_token w w' -> members unescape int_of float_of w' l).
Proof.
  apply json_mutind.
  - intros t v H w' S. inversion S as [|? t' ? ? Ht S']. inversion S'. subst. apply json_scalar. eapply same_scalar; eauto.
  - intros t t1 H H1 w' S. inversion S as [|? t' ? ? Ht S']. inversion S' as [|? t1' ? ? Ht1 S'']. inversion S''. subst.
    apply json_list_empty; eauto using same_punct.
  - intros t w vs t1 H He IH H1 w' S. inversion S as [|? t' ? l Ht S']. subst. apply Forall2_snoc in S' as (b & y & -> & Sb & Sy).
    apply json_list_some; eauto using same_punct.
  - intros t t1 H H1 w' S. inversion S as [|? t' ? ? Ht S']. inversion S' as [|? t1' ? ? Ht1 S'']. inversion S''. subst.
    apply json_dict_empty; eauto using same_punct.
  - intros t w kvs d t1 H He IH H1 Hd w' S. inversion S as [|? t' ? l Ht S']. subst. apply Forall2_snoc in S' as (b & y & -> & Sb & Sy).
    eapply json_dict_some; eauto using same_punct.
  - intros w v H IH w' S. apply el_one. auto.
  - intros w v c w1 vs H IH Hc He IH1 w' S. apply Forall2_app_inv_l in S as (b & l & Sb & Sl & ->). inversion Sl as [|? c' ? l' Hc' Sl']. subst.
    apply el_more; eauto using same_punct.
  - intros k c w v Hk Hc H IH w' S. inversion S as [|? k' ? l Ht S']. subst. inversion S' as [|? c' ? l' Hc' S'']. subst.
    pose proof Ht as [_ ->]. apply me_one; eauto using same_punct, same_kind.
  - intros k c w v c1 w1 kvs Hk Hc H IH Hc1 Hm IHm w' S. inversion S as [|? k' ? l Ht S']. subst. inversion S' as [|? c' ? l' Hc' S'']. subst.
    apply Forall2_app_inv_l in S'' as (b & l & Sb & Sl & ->). inversion Sl as [|? c1' ? l1 Hc1' Sl']. subst.
    pose proof Ht as [_ ->]. apply me_more; eauto using same_punct, same_kind.
Qed.
Lemma json_swap s1 t t' s2 v : same_token t t' -> is_json (s1 ++ t :: s2) v -> is_json (s1 ++ t' :: s2) v.
Proof.
  intros H K. apply (proj1 json_same _ _ K). apply Forall2_app; [|constructor; auto].
  - clear. induction s1; constructor; auto. split; reflexivity.
  - clear. induction s2; constructor; auto. split; reflexivity.
Qed.

(** closing brackets and the colon *)
Definition joiner (a : ascii) : Prop := a = "]"%char \/ a = "}"%char \/ a = ":"%char.
Lemma first_kind A k (f : token -> out A) t : first E (GFmap (token_p k) f) t -> is_kind k t.
Proof. intros (w & v & H). apply (fmap_tok_start unescape int_of float_of) in H as (t' & Q & H). injection Q as <- _. exact H. Qed.
Lemma first_alt A (p q : gram token json_V A) t : first E (GAlt p q) t -> first E p t \/ first E q t.
Proof. intros (w & v & H). apply sent_inv in H as [H|H]; [left|right]; exists w, v; exact H. Qed.
Lemma punct_is a b t : is_punct a t -> is_punct b t -> a = b.
Proof. intros [_ H1] [_ H2]. rewrite H1 in H2. injection H2 as H. rewrite <- (ascii_N_embedding a), H, ascii_N_embedding. reflexivity. Qed.
Lemma punct_kind a t k : is_punct a t -> is_kind k t -> k = "punct"%string.
Proof. intros [H _] K. unfold is_kind in K. congruence. Qed.
Lemma ptok_self a : is_punct a (ptok a).
Proof. split; reflexivity. Qed.
Lemma ptok_punct a b : is_punct b (ptok a) -> a = b.
Proof. apply punct_is, ptok_self. Qed.
Lemma joiner_value a x : joiner a -> is_punct a x -> ~ starts_value x.
Proof.
  intros J P H. unfold starts_value in H. decompose [or] H; clear H;
    try (match goal with H : is_kind _ _ |- _ => apply (punct_kind _ _ _ P) in H; discriminate end);
    match goal with H : is_punct _ _ |- _ => apply (punct_is _ _ _ P) in H; subst end; unfold joiner in J; intuition discriminate.
Qed.
Lemma joiner_comma a x : joiner a -> is_punct a x -> ~ is_punct "," x.
Proof. intros J P H. apply (punct_is _ _ _ P) in H. subst. unfold joiner in J. intuition discriminate. Qed.

Lemma json_apart a x : joiner a -> is_punct a x -> everywhere E (apart_node E x) value.
Proof.
  intros J P.
  assert (K : forall A k (f : token -> out A), k <> "punct"%string -> ~ first E (GFmap (token_p k) f) x).
  { intros A k f N H. apply first_kind in H. apply (punct_kind _ _ _ P) in H. congruence. }
  assert (Sc : ~ first E (jscalar unescape int_of float_of) x).
  { intros (w & v & H). apply (scalar_start unescape int_of float_of) in H as (t & Q & H). injection Q as <- _.
    decompose [or] H; match goal with H : is_kind _ _ |- _ => apply (punct_kind _ _ _ P) in H; discriminate end. }
  assert (Ci : forall A (p : gram token json_V A), ~ first E (seqr (punct ",") p) x).
  { intros A p (w & v & H). apply (item_start unescape int_of float_of) in H as (t & w' & Q & H). injection Q as <- _. exact (joiner_comma _ _ J P H). }
  assert (Va : ~ first E value x).
  { intros (w & v & H). apply (value_start unescape int_of float_of) in H as (t & w' & Q & H). injection Q as <- _. exact (joiner_value _ _ J P H). }
  assert (Me : ~ first E (jmember unescape (F:=F)) x).
  { intros (w & v & H). apply (member_start unescape int_of float_of) in H as (t & w' & Q & H). injection Q as <- _. apply (punct_kind _ _ _ P) in H. discriminate. }
  assert (Sq : forall A B C (p : gram token json_V A) (q : gram token json_V B) (f : A -> B -> C), (forall v, ~ sent p [] v) -> ~ first E p x -> ~ first E (GSeq p q f) x).
  { intros A B C p q f N H (w & v & H'). apply sent_inv in H' as (w1 & w2 & v1 & v2 & Q & _ & H' & _).
    destruct w1 as [|t w1]; [destruct (N _ H')|]. injection Q as <- _. apply H. exists w1, v1. exact H'. }
  assert (Wr : ~ first E (GRecoverWith (jscalar unescape int_of float_of) (JInt 1) "1") x).
  { intros (w & v & H). apply sent_inv in H. apply Sc. exists w, v. exact H. }
  assert (Di : ~ first E (GRecover (jdict unescape (F := F))) x).
  { intros (w & v & H). apply sent_inv in H. apply (dict_start unescape int_of float_of) in H as (t & w' & Q & H). injection Q as <- _.
    apply (punct_is _ _ _ P) in H. subst. unfold joiner in J. intuition discriminate. }
  assert (Li : ~ first E (GRecover (jlist (F := F))) x).
  { intros (w & v & H). apply sent_inv in H. apply (list_start unescape int_of float_of) in H as (t & w' & Q & H). injection Q as <- _.
    apply (punct_is _ _ _ P) in H. subst. unfold joiner in J. intuition discriminate. }
  assert (Ve : forall v, ~ sent value [] v).
  { intros v H. apply (value_start unescape int_of float_of) in H as (t & w' & Q & _). discriminate. }
  assert (Mn : forall v, ~ sent (jmember unescape (F := F)) [] v).
  { intros v H. apply (member_start unescape int_of float_of) in H as (t & w' & Q & _). discriminate. }
  apply everywhere_gall; [intros d|]; solve_gall; intros.
  all: try exact Wr; try exact Di; try exact Li; try (apply K; discriminate); try (apply Sq; assumption).
  all: intros H; repeat (apply first_alt in H as [H|H]); try (revert H; apply K; discriminate); auto.
Qed.
Lemma ptok_is a b : token_eqb (ptok a) (ptok b) = true -> ptok b = ptok a.
Proof.
  unfold token_eqb. cbn [ptok tk_kind tk_value chars_eqb]. intros H. apply andb_prop in H as [_ H]. apply andb_prop in H as [H _].
  apply N.eqb_eq in H. unfold ptok. rewrite H. reflexivity.
Qed.
Lemma json_insertable a : everywhere E (insertable_node (ptok a)) value.
Proof.
  apply everywhere_gall; [intros d|]; solve_gall; intros;
    match goal with H : token_eqb _ (Token "punct" (ascii_chars (String ?b EmptyString)) _ _) = true |- _ => exact (ptok_is a b H) end.
Qed.
Lemma json_eof_free : everywhere E eof_free_node value.
Proof. apply everywhere_gall; [intros d|]; solve_gall. Qed.
Lemma is_ptok a t : is_punct a t -> same_token t (ptok a).
Proof. intros [H1 H2]. split; auto. Qed.

(** ** A closing bracket or a colon is missing *)
Theorem C75_json : forall toks s1 t s2 v mi n r,
  toks = s1 ++ s2 -> is_punct "]" t \/ is_punct "}" t \/ is_punct ":" t ->
  is_json (s1 ++ t :: s2) v ->
  (forall y s3, s2 = y :: s3 -> ~ exists rest u, is_json (s1 ++ y :: rest) u) ->
  mi <> 0%Z -> parse E n top toks true mi lexer_get_loc linecol_fmt = Ret r ->
  exists e w, unwrap r false = Raises [e] /\ unwrap r true = Returns w /\
    ei_loc e = loc_from_stream toks (List.length s1) /\
    (ei_op e = Some (Skip 1) \/ exists l, ei_op e = Some (Insert l)).
Proof.
  intros toks s1 t s2 v mi n r -> Ht Hv Hn Hm H.
  assert (exists a, joiner a /\ same_token t (ptok a)) as (a & J & S).
  { unfold joiner. destruct Ht as [Ht|[Ht|Ht]]; apply is_ptok in Ht; eexists; (split; [|exact Ht]); auto. }
  apply (json_swap _ _ _ _ _ S) in Hv. apply json_sentence in Hv.
  refine (C75_missing token json_V E n _ value s1 (ptok a) s2 v mi lexer_get_loc linecol_fmt (loc_from_stream (s1 ++ s2)) r
    (json_wf_E _ _ _) (json_wf (F := F)) (lexer_cohere _) (json_lay _ _ _ _) (json_completable _ _ _) (json_LL1 _ _ _) (json_quiet _ _ _)
    (json_guarded _ _ _) (json_one_token _ _ _) (json_layout_free _ _ _) json_eof_free (json_single_withs _ _ _) (json_apart a _ J (ptok_self a))
    (json_insertable a) Hv _ Hm H).
  unfold noticed. destruct s2 as [|y s3]; [exact I|]. intros (rest & u & K). apply (Hn y s3 eq_refl). exists rest, u.
  apply json_sentence. rewrite <- app_assoc in K. exact K.
Qed.

(** ** Tokens too many before a closing bracket or colon, or at the end *)
Theorem C75_json_superfluous : forall toks s1 zs s2 v mi n r,
  toks = s1 ++ zs ++ s2 -> zs <> [] ->
  (forall t s3, s2 = t :: s3 -> is_punct "]" t \/ is_punct "}" t \/ is_punct ":" t) ->
  is_json (s1 ++ s2) v -> (forall z, In z zs -> ~ exists rest u, is_json (s1 ++ z :: rest) u) ->
  parse E n top toks true mi lexer_get_loc linecol_fmt = Ret r ->
  exists e errs ops w, unwrap r false = Raises (e :: errs) /\ unwrap r true = Returns w /\
    ei_loc e = loc_from_stream toks (List.length s1) /\
    Forall2 (fun e o => ei_op e = Some o) (e :: errs) ops /\ ops_cost ops <= List.length zs.
Proof.
  intros toks s1 zs s2 v mi n r -> Hz Ht Hv Hn H. apply json_sentence in Hv.
  refine (C75_superfluous token json_V E n _ value s1 zs s2 v mi lexer_get_loc linecol_fmt (loc_from_stream (s1 ++ zs ++ s2)) r
    (json_wf_E _ _ _) (json_wf (F := F)) (lexer_cohere _) (json_lay _ _ _ _) (json_completable _ _ _) (json_LL1 _ _ _) (json_quiet _ _ _)
    (json_guarded _ _ _) (json_one_token _ _ _) (json_layout_free _ _ _) json_eof_free (json_single_withs _ _ _) _ Hv Hz _ H).
  - intros t s3 Q. specialize (Ht t s3 Q). destruct Ht as [Ht|[Ht|Ht]]; (eapply json_apart; [|exact Ht]); unfold joiner; auto.
  - intros z Iz (rest & u & K). apply (Hn z Iz). exists rest, u. apply json_sentence. rewrite <- app_assoc in K. exact K.
Qed.

(** what the parser can insert *)
Lemma json_inserts l w : inserts E value l w -> (exists b, w = [inl (ptok b)] /\ l = String "'" (String b "'")) \/ exists x, w = [inr x].
Proof.
  intros (B & q & Ho & Hq). revert B q Ho Hq.
  enough (K : everywhere E (fun B q => insert_node q l w -> (exists b, w = [inl (ptok b)] /\ l = String "'" (String b "'")) \/ exists x, w = [inr x]) value) by exact K.
  apply everywhere_gall; [intros d|]; solve_gall; intros [-> ->]; try (right; eexists; reflexivity);
    left; eexists; split; reflexivity.
Qed.
(** a repaired text that begins with a bracket ends with the matching one *)
Lemma punct_word a w v : lang E _ (punct (String a "")) w v -> w = [inl v] /\ is_punct a v.
Proof.
  intros H. apply lang_inv in H as [-> H]. split; auto. unfold token_eqb in H. apply andb_prop in H as [H1 H2].
  apply String.eqb_eq in H1. split; auto. cbn [tk_value ascii_chars list_ascii_of_string map] in H2.
  destruct (tk_value v) as [|c [|c' l]]; cbn in H2; try discriminate; [|destruct (N.eqb c _); discriminate].
  rewrite andb_true_r in H2. apply N.eqb_eq in H2. subst. reflexivity.
Qed.
Lemma between_word A (p : gram token json_V A) a b w v : lang E _ (between (punct (String a "")) (punct (String b "")) p) w v ->
  exists t w' t', w = inl t :: w' ++ [inl t'] /\ is_punct a t /\ is_punct b t'.
Proof.
  intros H. apply lang_inv in H as (w1 & w2 & v1 & v2 & -> & _ & H1 & H2). apply punct_word in H1 as [-> H1].
  apply lang_inv in H2 as (w3 & w4 & v3 & v4 & -> & _ & _ & H2). apply punct_word in H2 as [-> H2].
  exists v1, w3, v4. split; [reflexivity|]. auto.
Qed.
Definition bracket (a b : ascii) : Prop := (a = "["%char /\ b = "]"%char) \/ (a = "{"%char /\ b = "}"%char).
Lemma tok_word A k (f : token -> out A) w v : lang E _ (GFmap (token_p k) f) w v -> exists t, w = [inl t] /\ is_kind k t.
Proof.
  intros H. apply lang_inv in H as (t & H & _). apply lang_inv in H. apply lang_inv in H as [-> H]. exists t. split; auto.
  injection H as H. apply String.eqb_eq in H. exact H.
Qed.
Lemma scalar_word w v : lang E _ (jscalar unescape int_of float_of) w v -> exists t k, w = [inl t] /\ is_kind k t /\ k <> "punct"%string.
Proof.
  intros H. unfold jscalar in H. repeat (apply lang_inv in H as [H|H]); apply tok_word in H as (t & -> & H); eexists; eexists; (split; [reflexivity|]);
    (split; [exact H|discriminate]).
Qed.
Lemma value_word a b t w v : bracket a b -> is_punct a t -> lang E _ value (inl t :: w) v ->
  exists w' t', w = w' ++ [inl t'] /\ is_punct b t'.
Proof.
  intros B P H. apply lang_inv in H. apply lang_inv in H.
  apply lang_inv in H as [H|H]; [apply lang_inv in H as [H|H]|].
  - apply lang_inv in H as [H|[H _]]; [|discriminate]. apply scalar_word in H as (t' & k & Q & K & N). injection Q as <- _.
    destruct P as [P _]. unfold is_kind in K. congruence.
  - do 2 apply lang_inv in H. apply between_word in H as (t0 & w' & t' & Q & H1 & H2). injection Q as <- ->.
    pose proof (punct_is _ _ _ P H1) as ->. exists w', t'. split; auto. destruct B as [[B ->]|[B ->]]; [discriminate|exact H2].
  - do 2 apply lang_inv in H. apply between_word in H as (t0 & w' & t' & Q & H1 & H2). injection Q as <- ->.
    pose proof (punct_is _ _ _ P H1) as ->. exists w', t'. split; auto. destruct B as [[B ->]|[B ->]]; [exact H2|discriminate].
Qed.
Lemma snoc_inj {X} (a b : list X) x y : a ++ [x] = b ++ [y] -> a = b /\ x = y.
Proof. apply app_inj_tail. Qed.
Lemma closing b t s1 v : b = "]"%char \/ b = "}"%char -> is_punct b t -> is_json (s1 ++ [t]) v ->
  exists a t0 s, bracket a b /\ s1 = t0 :: s /\ is_punct a t0.
Proof.
  intros B P H. inversion H as [t' v' K Q|t0 t' K1 K2 Q|t0 w vs t' K1 _ K2 Q|t0 t' K1 K2 Q|t0 w kvs d t' K1 _ K2 _ Q].
  - change [t'] with ([] ++ [t']) in Q. apply snoc_inj in Q as [_ ->]. destruct P as [P _]. destruct K; unfold is_kind in *; congruence.
  - change [t0; t'] with ([t0] ++ [t']) in Q. apply snoc_inj in Q as [<- ->]. pose proof (punct_is _ _ _ P K2) as ->.
    exists "["%char, t0, []. split; [left; auto|auto].
  - change (t0 :: w ++ [t']) with ((t0 :: w) ++ [t']) in Q. apply snoc_inj in Q as [<- ->]. pose proof (punct_is _ _ _ P K2) as ->.
    exists "["%char, t0, w. split; [left; auto|auto].
  - change [t0; t'] with ([t0] ++ [t']) in Q. apply snoc_inj in Q as [<- ->]. pose proof (punct_is _ _ _ P K2) as ->.
    exists "{"%char, t0, []. split; [right; auto|auto].
  - change (t0 :: w ++ [t']) with ((t0 :: w) ++ [t']) in Q. apply snoc_inj in Q as [<- ->]. pose proof (punct_is _ _ _ P K2) as ->.
    exists "{"%char, t0, w. split; [right; auto|auto].
Qed.

(** the last bracket is missing *)
Lemma json_unclosed : forall b s1 t v mi n r,
  (forall p q, p <= List.length s1 -> q <= List.length s1 -> loc_from_stream s1 p = loc_from_stream s1 q -> p = q) ->
  b = "]"%char \/ b = "}"%char -> is_punct b t -> is_json (s1 ++ [t]) v ->
  mi <> 0%Z -> parse E n top s1 true mi lexer_get_loc linecol_fmt = Ret r ->
  exists e, unwrap r false = Raises [e] /\ unwrap r true = Returns v /\
    ei_loc e = loc_from_stream s1 (List.length s1) /\ ei_op e = Some (Insert (String "'" (String b "'"))).
Proof.
  intros b s1 t v mi n r Hi Hb Ht Hv Hm H. destruct (closing b t s1 v Hb Ht Hv) as (a & t0 & s & B & Qs & P0).
  assert (J : joiner b) by (unfold joiner; tauto).
  apply (json_swap _ _ _ _ _ (is_ptok _ _ Ht)) in Hv. apply json_sentence in Hv.
  assert (Ho : forall l w u, inserts E value l w -> lang E _ value (map inl s1 ++ w ++ map inl []) u -> w = [inl (ptok b)]).
  { intros l w u I L. subst s1. cbn [map app] in L. rewrite app_nil_r in L. apply (value_word a b t0 _ u B P0) in L as (w' & t' & L & Pt).
    destruct (json_inserts _ _ I) as [(c & -> & _)|(x & ->)]; apply snoc_inj in L as [_ L]; [|discriminate]. injection L as <-.
    apply ptok_punct in Pt. congruence. }
  rewrite <- (app_nil_r s1) in H, Hi.
  destruct (C75_inserted token json_V E n _ value s1 (ptok b) [] v mi lexer_get_loc linecol_fmt (loc_from_stream (s1 ++ [])) r
    (json_wf_E _ _ _) (json_wf (F := F)) (lexer_cohere _) (json_lay _ _ _ _) Hi (json_completable _ _ _) (json_LL1 _ _ _) (json_quiet _ _ _)
    (json_guarded _ _ _) (json_one_token _ _ _) (json_layout_free _ _ _) json_eof_free (json_single_withs _ _ _) (json_apart b _ J (ptok_self b))
    (json_insertable b) Hv I Hm ltac:(discriminate) Ho H) as (e & l & U1 & U2 & L & O & Is).
  exists e. split; auto. split; auto. rewrite app_nil_r in L. split; auto. rewrite O. do 2 f_equal.
  destruct (json_inserts _ _ Is) as [(c & Q & ->)|(x & Q)]; [|discriminate].
  injection Q as Q. rewrite <- (ascii_N_embedding b), Q, ascii_N_embedding. reflexivity.
Qed.
End P.
Print Assumptions C75_json.
Print Assumptions C75_json_superfluous.

(** ** Cases: ["a": ...] without the colon, and a value too many *)
Definition mtok (k : string) (x : string) (i : Z) : token := Token k (ascii_chars x) (Loc i 0 i) (Loc (i + 1) 0 (i + 1)).
Definition ex_mJ := json_E (fun x => x) (fun x => Z.of_nat (List.length x)) (fun x : list char => x).
(** [1, {"a" 2}] *)
Definition ex_m1 : list token := [mtok "punct" "[" 0; mtok "integer" "1" 1; mtok "punct" "," 2; mtok "punct" "{" 4; mtok "string" "a" 6].
Definition ex_m2 : list token := [mtok "integer" "2" 9; mtok "punct" "}" 10; mtok "punct" "]" 11].
Example C75_case_json :
  is_json (fun x => x) (fun x => Z.of_nat (List.length x)) (fun x : list char => x) (ex_m1 ++ mtok "punct" ":" 8 :: ex_m2)
    (JList [JInt 1; JDict [(ascii_chars "a", JInt 1)]]) /\
  (forall y s3, ex_m2 = y :: s3 -> ~ exists rest u, is_json (fun x => x) (fun x => Z.of_nat (List.length x)) (fun x : list char => x) (ex_m1 ++ y :: rest) u) /\
  exists r, lexer_parse ex_mJ 60 json_parser (ex_m1 ++ ex_m2) true = Ret r.
Proof.
  split; [|split].
  - apply (C61_texts _ _ _ (ex_m1 ++ mtok "punct" ":" 8 :: ex_m2) false). exists 60. eexists. split; vm_compute; reflexivity.
  - intros y s3 Q. injection Q as <- _.
    destruct (lexer_parse ex_mJ 60 json_parser (ex_m1 ++ ex_m2) false) as [r| |] eqn:H; try (vm_compute in H; discriminate).
    destruct (unwrap r false) as [u|errs] eqn:U; [vm_compute in H; injection H as <-; vm_compute in U; discriminate|].
    destruct (C61_position _ _ _ _ _ _ _ _ H U) as (p & e & -> & L & Hp & _ & K & _).
    vm_compute in H. injection H as <-. vm_compute in U. injection U as <-.
    do 8 (destruct p as [|p]; [first [discriminate L|exact (K ltac:(cbn; lia))]|]). cbn in Hp. destruct p; [discriminate L|lia].
  - eexists. vm_compute. reflexivity.
Qed.
(** [1 2] *)
Example C75_case_json_superfluous :
  let s1 := [mtok "punct" "[" 0; mtok "integer" "1" 1] in let z := mtok "integer" "2" 3 in let s2 := [mtok "punct" "]" 4] in
  is_json (fun x => x) (fun x => Z.of_nat (List.length x)) (fun x : list char => x) (s1 ++ s2) (JList [JInt 1]) /\
  (~ exists rest u, is_json (fun x => x) (fun x => Z.of_nat (List.length x)) (fun x : list char => x) (s1 ++ z :: rest) u) /\
  exists r, lexer_parse ex_mJ 60 json_parser (s1 ++ [z] ++ s2) true = Ret r.
Proof.
  intros s1 z s2. split; [|split].
  - apply (C61_texts _ _ _ (s1 ++ s2) false). exists 60. eexists. split; vm_compute; reflexivity.
  - destruct (lexer_parse ex_mJ 60 json_parser (s1 ++ z :: s2) false) as [r| |] eqn:H; try (vm_compute in H; discriminate).
    destruct (unwrap r false) as [u|errs] eqn:U; [vm_compute in H; injection H as <-; vm_compute in U; discriminate|].
    destruct (C61_position _ _ _ _ _ _ _ _ H U) as (p & e & -> & L & Hp & _ & K & _).
    vm_compute in H. injection H as <-. vm_compute in U. injection U as <-.
    do 4 (destruct p as [|p]; [first [discriminate L|exact (K ltac:(cbn; lia))]|]). cbn in Hp. destruct p; [discriminate L|lia].
  - eexists. vm_compute. reflexivity.
Qed.
