(** C77 for the JSON parser of the test-suite: a forgotten value *)
From Verif Require Import Fuel ApiSpec ApiProofs Locations Json JsonSpec JsonProofs JsonLL PropsJson LL LangInv PropsTotal FirstSpec PropsFirst PropsLL PropsFill Examples
  Mend PropsMend Miss PropsMiss PropsMissJson PropsGap.
Import ListNotations.

(** [s] ends with a comma or a colon *)
Definition ends_sep (s : list token) : Prop := exists s0 c, s = s0 ++ [c] /\ (is_punct "," c \/ is_punct ":" c).

Section P.
Context {F : Type}.
Variable unescape : list char -> list char.
Variable int_of : list char -> Z.
Variable float_of : list char -> F.
Notation E := (json_E unescape int_of float_of).
Notation is_json := (is_json unescape int_of float_of).
Notation elements := (elements unescape int_of float_of).
Notation members := (members unescape int_of float_of).
Notation value := (jvalue (F := F)).
Notation member := (jmember unescape (F := F)).
Notation top := (json_parser (F := F)).
Notation sent := (sentence E).
Notation gap := (gap E "1").

Lemma sep_tail a x b : ends_sep (a ++ x :: b) -> b = [] \/ ends_sep b.
Proof.
  intros (s0 & c & Q & H). destruct b as [|y b _] using rev_ind; [auto|right].
  change (a ++ x :: b ++ [y]) with (a ++ (x :: b) ++ [y]) in Q. rewrite app_assoc in Q. apply app_inj_tail in Q as [_ ->].
  exists b, c. auto.
Qed.
Lemma sep_ne a : ends_sep a -> a <> [].
Proof. intros (s0 & c & -> & _). destruct s0; discriminate. Qed.

Variable i1 : token.
Hypothesis Hk : is_kind "integer" i1.
Hypothesis H1 : int_of (tk_value i1) = 1%Z.

Lemma not_punct a : ~ is_punct a i1.
Proof using Hk. intros [P _]. unfold is_kind in Hk. congruence. Qed.
Lemma not_string : ~ is_kind "string" i1.
Proof using Hk. intros P. unfold is_kind in *. congruence. Qed.
Lemma scalar_gap : gap _ value [] [] (JInt 1).
Proof using Type.
  refine (gp_delay E "1" 0 [] [] (JInt 1) _). apply gp_label, gp_alt_l; [apply gp_alt_l; [apply gp_here|]|].
  - exists [Token "null" [] loc0 loc0], JNull. apply (sent_scalar unescape int_of float_of). apply is_null. reflexivity.
  - intros [v H]. apply (scalar_start unescape int_of float_of) in H as (t & Q & _). discriminate.
  - right. intros [v H]. apply sent_inv in H. apply (dict_start unescape int_of float_of) in H as (t & w' & Q & _). discriminate.
  - right. intros [v H]. apply sent_inv in H. apply (list_start unescape int_of float_of) in H as (t & w' & Q & _). discriminate.
Qed.
Lemma item_gap A (p : gram token json_V A) c w1 w2 v : is_punct "," c -> gap _ p w1 w2 v -> gap _ (seqr (punct ",") p) (c :: w1) w2 v.
Proof using Type.
  intros Hc H. apply (gp_seq_r E "1" _ _ _ (punct ",") p (fun _ r => r) [c] c w1 w2 v); auto.
  apply (sent_punct unescape int_of float_of). exact Hc.
Qed.
Lemma between_gap A B (p : gram token json_V A) (f : A -> out B) a b t w1 w2 x t' v :
  is_punct a t -> is_punct b t' -> gap _ p w1 w2 x -> f x = Ret v ->
  gap _ (between (punct (String a "")) (punct (String b "")) (GFmap p f)) (t :: w1) (w2 ++ [t']) v.
Proof using Type.
  intros K1 K2 H Hf. apply (gp_seq_r E "1" _ _ _ (punct (String a "")) (seql (GFmap p f) (punct (String b ""))) (fun _ r => r) [t] t w1 (w2 ++ [t']) v).
  - apply (sent_punct unescape int_of float_of). exact K1.
  - apply (gp_seq_l E "1" _ _ _ (GFmap p f) (punct (String b "")) (fun l _ => l) w1 w2 v [t'] t'); [eapply gp_fmap; eauto|].
    apply (sent_punct unescape int_of float_of). exact K2.
Qed.
Lemma sepby_gap A (p : gram token json_V A) w1 w2 v l : w1 <> [] -> gap _ (seq p (GMany (seqr (punct ",") p))) w1 w2 (v, l) ->
  gap _ (sep_by p (punct ",")) w1 w2 (v :: l).
Proof using Type. intros N H. eapply (gp_fmap E "1" _ _ _ _ w1 w2 (Some (v, l))); [|reflexivity]. apply gp_maybe; auto. Qed.
Lemma dict_gap t w1 w2 x t' : is_punct "{" t -> is_punct "}" t' -> gap _ (sep_by member (punct ",")) w1 w2 x ->
  gap _ value (t :: w1) (w2 ++ [t']) (JDict (dict_of x)).
Proof using Type.
  intros K1 K2 H. refine (gp_delay E "1" 0 (t :: w1) (w2 ++ [t']) (JDict (dict_of x)) _).
  apply gp_label, gp_alt_l; [|left; discriminate]. apply gp_alt_r, gp_recover, gp_label. eapply between_gap; eauto.
Qed.
Lemma list_gap t w1 w2 x t' : is_punct "[" t -> is_punct "]" t' -> gap _ (sep_by value (punct ",")) w1 w2 x ->
  gap _ value (t :: w1) (w2 ++ [t']) (JList x).
Proof using Type.
  intros K1 K2 H. refine (gp_delay E "1" 0 (t :: w1) (w2 ++ [t']) (JList x) _).
  apply gp_label, gp_alt_r, gp_recover, gp_label. eapply between_gap; eauto.
Qed.
Lemma member_gap k c w1 w2 v : is_kind "string" k -> is_punct ":" c -> gap _ value w1 w2 v ->
  gap _ member (k :: c :: w1) w2 (unescape (tk_value k), v).
Proof using Type.
  intros K1 K2 H.
  apply (gp_seq_r E "1" _ _ _ (seql (GRecoverWith (jstring unescape) (ascii_chars "a") "'""a""'") (punct ":")) value (fun l r => (l, r)) [k; c] (unescape (tk_value k)) w1 w2 v); auto.
  apply (se_seq E _ _ _ (GRecoverWith (jstring unescape) (ascii_chars "a") _) (punct ":") (fun l _ => l) [k] [c] (unescape (tk_value k)) c).
  - apply la_with. eapply la_fmap; [apply (sent_token unescape int_of float_of); exact K1|reflexivity].
  - apply (sent_punct unescape int_of float_of). exact K2.
Qed.
Lemma elements_many w vs c : is_punct "," c -> elements w vs -> sent (GMany (seqr (punct ",") value)) (c :: w) vs.
Proof using Type.
  intros Hc H. apply (json_complete_all unescape int_of float_of) in H as (w1 & w2 & v & l & -> & -> & H & HM).
  apply (sent_item unescape int_of float_of); auto.
Qed.
Lemma members_many w vs c : is_punct "," c -> members w vs -> sent (GMany (seqr (punct ",") member)) (c :: w) vs.
Proof using Type.
  intros Hc H. apply (json_complete_all unescape int_of float_of) in H as (w1 & w2 & v & l & -> & -> & H & HM).
  apply (sent_item unescape int_of float_of); auto.
Qed.
Lemma many_none A (p : gram token json_V A) : sent (GMany p) [] [].
Proof using Type. constructor. Qed.

(** where a 1 behind a comma or a colon makes the text right, there is a gap *)
Lemma json_gap :
  (forall w v, is_json w v -> forall a b, w = a ++ i1 :: b -> a = [] \/ ends_sep a -> gap _ value a b v) /\
  (forall w vs, elements w vs -> forall a b, w = a ++ i1 :: b ->
     (a = [] \/ ends_sep a -> forall c, is_punct "," c -> gap _ (GMany (seqr (punct ",") value)) (c :: a) b vs) /\
     (ends_sep a -> exists v l, vs = v :: l /\ gap _ (seq value (GMany (seqr (punct ",") value))) a b (v, l))) /\
  (forall w kvs, members w kvs -> forall a b, w = a ++ i1 :: b ->
     (a = [] \/ ends_sep a -> forall c, is_punct "," c -> gap _ (GMany (seqr (punct ",") member)) (c :: a) b kvs) /\
     (ends_sep a -> exists v l, kvs = v :: l /\ gap _ (seq member (GMany (seqr (punct ",") member))) a b (v, l))).
Proof using Hk H1.
  pose proof not_punct as NP. pose proof not_string as NS.
  assert (SPB : forall (t : token) w (t' : token) a b, t :: w ++ [t'] = a ++ i1 :: b -> t <> i1 -> t' <> i1 ->
    exists a' b', a = t :: a' /\ b = b' ++ [t'] /\ w = a' ++ i1 :: b').
  { intros t w t' a b Q N N'. destruct a as [|t0 a]; [injection Q as Q _; congruence|]. injection Q as <- Q.
    destruct b as [|y b _] using rev_ind.
    - apply app_inj_tail in Q as [_ Q]. congruence.
    - change (a ++ i1 :: b ++ [y]) with (a ++ (i1 :: b) ++ [y]) in Q. rewrite app_assoc in Q. apply app_inj_tail in Q as [Q ->].
      exists a, b. auto. }
  assert (SPC : forall w (c : token) w' a b, w ++ c :: w' = a ++ i1 :: b -> c <> i1 ->
    (exists b', w = a ++ i1 :: b' /\ b = b' ++ c :: w') \/ (exists a', a = w ++ c :: a' /\ w' = a' ++ i1 :: b)).
  { intros w c w' a b Q N. symmetry in Q. apply split_at in Q as [(d & -> & ->)|(d & -> & Q)]; [left; eauto|right].
    destruct d as [|t d]; [injection Q as Q _; congruence|]. injection Q as <- ->. eauto. }
  apply json_mutind.
  - intros t v H a b Q _. destruct a as [|t0 a]; [|destruct a; discriminate]. injection Q as -> <-.
    destruct H; unfold is_kind in *; try congruence. rewrite H1. apply scalar_gap.
  - intros t t1 K1 K2 a b Q _. exfalso. destruct a as [|t0 [|t0' a]]; [injection Q as -> _; exact (NP _ K1)|injection Q as _ -> _; exact (NP _ K2)|].
    destruct a; discriminate.
  - intros t w vs t1 K1 _ IH K2 a b Q Hs. apply SPB in Q as (a' & b' & -> & -> & ->); try (intros ->; eapply NP; eauto).
    assert (S : ends_sep a').
    { destruct Hs as [Hs|Hs]; [discriminate|]. apply (sep_tail []) in Hs as Hs'. destruct Hs' as [->|Hs']; auto. exfalso.
      destruct Hs as (s0 & c & Q & [K|K]); destruct s0 as [|? s0]; try (destruct s0; discriminate); injection Q as ->;
        pose proof (punct_is _ _ _ K1 K); discriminate. }
    destruct (proj2 (IH a' b' eq_refl) S) as (v & l & -> & G). apply list_gap; auto. apply sepby_gap; auto. apply sep_ne; auto.
  - intros t t1 K1 K2 a b Q _. exfalso. destruct a as [|t0 [|t0' a]]; [injection Q as -> _; exact (NP _ K1)|injection Q as _ -> _; exact (NP _ K2)|].
    destruct a; discriminate.
  - intros t w kvs d t1 K1 _ IH K2 Hd a b Q Hs. apply SPB in Q as (a' & b' & -> & -> & ->); try (intros ->; eapply NP; eauto).
    assert (S : ends_sep a').
    { destruct Hs as [Hs|Hs]; [discriminate|]. apply (sep_tail []) in Hs as Hs'. destruct Hs' as [->|Hs']; auto. exfalso.
      destruct Hs as (s0 & c & Q & [K|K]); destruct s0 as [|? s0]; try (destruct s0; discriminate); injection Q as ->;
        pose proof (punct_is _ _ _ K1 K); discriminate. }
    destruct (proj2 (IH a' b' eq_refl) S) as (v & l & -> & G).
    rewrite (is_dict_unique _ _ _ _ Hd (dict_of_is_dict _ _)). apply dict_gap; auto. apply sepby_gap; auto. apply sep_ne; auto.
  - intros w v H IH a b ->. split.
    + intros Hs c Hc. rewrite <- (app_nil_r b). apply gp_many_here; [discriminate| |apply many_none]. apply item_gap; auto.
    + intros Hs. exists v, []. split; auto. rewrite <- (app_nil_r b).
      apply (gp_seq_l E "1" _ _ _ value (GMany _) (fun l r => (l, r)) a b v [] []); auto. apply many_none.
  - intros w v c w1 vs H IH Hc He IHe a b Q. apply SPC in Q as [(b' & Q1 & ->)|(a' & -> & Q2)]; [| |intros ->; eapply NP; eauto].
    + split.
      * intros Hs c0 Hc0. apply (gp_many_here E "1" _ _ (c0 :: a) b'); [discriminate|apply item_gap; auto|apply elements_many; auto].
      * intros Hs. exists v, vs. split; auto.
        apply (gp_seq_l E "1" _ _ _ value (GMany _) (fun l r => (l, r)) a b' v (c :: w1) vs); auto. apply elements_many; auto.
    + assert (K : ends_sep (w ++ c :: a') -> gap _ (GMany (seqr (punct ",") value)) (c :: a') b vs).
      { intros Hs. apply sep_tail in Hs. apply (proj1 (IHe a' b Q2)); auto. }
      apply (json_sentence unescape int_of float_of) in H. split.
      * intros Hs c0 Hc0. change (c0 :: w ++ c :: a') with ((c0 :: w) ++ c :: a'). apply gp_many_next.
        -- apply (se_seq E _ _ _ (punct ",") value (fun _ r => r) [c0] w c0 v); auto. apply (sent_punct unescape int_of float_of). exact Hc0.
        -- apply K. destruct Hs as [Hs|Hs]; auto. destruct w; discriminate.
      * intros Hs. exists v, vs. split; auto. apply (gp_seq_r E "1" _ _ _ value (GMany _) (fun l r => (l, r)) w v (c :: a') b vs); auto.
  - intros k c w v Kk Kc H IH a b Q. destruct a as [|t a]; [injection Q as -> _; destruct (NS Kk)|]. injection Q as <- Q.
    destruct a as [|t a]; [injection Q as -> _; destruct (NP _ Kc)|]. injection Q as <- ->.
    assert (K : ends_sep (k :: c :: a) -> gap _ member (k :: c :: a) b (unescape (tk_value k), v)).
    { intros Hs. apply (sep_tail [k]) in Hs. apply member_gap; auto. }
    split.
    + intros Hs c0 Hc0. rewrite <- (app_nil_r b). apply gp_many_here; [discriminate| |apply many_none]. apply item_gap; auto.
      apply K. destruct Hs; [discriminate|auto].
    + intros Hs. exists (unescape (tk_value k), v), []. split; auto. rewrite <- (app_nil_r b).
      apply (gp_seq_l E "1" _ _ _ member (GMany _) (fun l r => (l, r)) (k :: c :: a) b (unescape (tk_value k), v) [] []); auto. apply many_none.
  - intros k c w v c1 w1 kvs Kk Kc H IH Hc1 Hm IHm a b Q. destruct a as [|t a]; [injection Q as -> _; destruct (NS Kk)|]. injection Q as <- Q.
    destruct a as [|t a]; [injection Q as -> _; destruct (NP _ Kc)|]. injection Q as <- Q.
    apply SPC in Q as [(b' & Q1 & ->)|(a' & -> & Q2)]; [| |intros ->; eapply NP; eauto].
    + assert (K : ends_sep (k :: c :: a) -> gap _ member (k :: c :: a) b' (unescape (tk_value k), v)).
      { intros Hs. apply (sep_tail [k]) in Hs. apply member_gap; auto. }
      split.
      * intros Hs c0 Hc0. apply (gp_many_here E "1" _ _ (c0 :: k :: c :: a) b'); [discriminate| |apply members_many; auto]. apply item_gap; auto.
        apply K. destruct Hs; [discriminate|auto].
      * intros Hs. exists (unescape (tk_value k), v), kvs. split; auto.
        apply (gp_seq_l E "1" _ _ _ member (GMany _) (fun l r => (l, r)) (k :: c :: a) b' (unescape (tk_value k), v) (c1 :: w1) kvs); auto. apply members_many; auto.
    + assert (K : ends_sep (k :: c :: w ++ c1 :: a') -> gap _ (GMany (seqr (punct ",") member)) (c1 :: a') b kvs).
      { intros Hs. change (k :: c :: w ++ c1 :: a') with ((k :: c :: w) ++ c1 :: a') in Hs. apply sep_tail in Hs. apply (proj1 (IHm a' b Q2)); auto. }
      apply (json_sentence unescape int_of float_of) in H.
      pose proof (sent_member unescape int_of float_of k c w v Kk Kc H) as Sm. split.
      * intros Hs c0 Hc0. change (c0 :: k :: c :: w ++ c1 :: a') with ((c0 :: k :: c :: w) ++ c1 :: a'). apply gp_many_next with (v := (unescape (tk_value k), v)).
        -- apply (se_seq E _ _ _ (punct ",") member (fun _ r => r) [c0] (k :: c :: w) c0 (unescape (tk_value k), v)); auto. apply (sent_punct unescape int_of float_of). exact Hc0.
        -- apply K. destruct Hs as [Hs|Hs]; auto. discriminate.
      * intros Hs. exists (unescape (tk_value k), v), kvs. split; auto.
        apply (gp_seq_r E "1" _ _ _ member (GMany _) (fun l r => (l, r)) (k :: c :: w) (unescape (tk_value k), v) (c1 :: a') b kvs); auto.
Qed.

(** ** One error, where the value is missing *)
Theorem C77_json : forall toks s1 s2 v mi n r,
  toks = s1 ++ s2 -> s1 = [] \/ ends_sep s1 -> is_json (s1 ++ i1 :: s2) v ->
  (forall y s3, s2 = y :: s3 -> ~ exists rest u, is_json (s1 ++ y :: rest) u) ->
  (0 < mi)%Z -> parse E n top toks true mi lexer_get_loc linecol_fmt = Ret r ->
  exists e w, unwrap r false = Raises [e] /\ unwrap r true = Returns w /\
    ei_loc e = loc_from_stream toks (List.length s1) /\
    (ei_op e = Some (Skip 1) \/ exists l, ei_op e = Some (Insert l)).
Proof using Hk H1.
  intros toks s1 s2 v mi n r -> Hs Hv Hn Hm H.
  refine (C77_forgotten_value token json_V E n _ value "1" s1 s2 v mi lexer_get_loc linecol_fmt (loc_from_stream (s1 ++ s2)) r
    (json_wf_E _ _ _) (json_wf (F := F)) (lexer_cohere _) (json_lay _ _ _ _) (json_completable _ _ _) (json_LL1 _ _ _) (json_quiet _ _ _)
    (json_guarded _ _ _) (json_one_token _ _ _) (json_layout_free _ _ _) (json_eof_free _ _ _) (json_single_withs _ _ _)
    (proj1 json_gap _ _ Hv s1 s2 eq_refl Hs) _ Hm H).
  unfold noticed. destruct s2 as [|y s3]; [exact I|]. intros (rest & u & K). apply (Hn y s3 eq_refl). exists rest, u.
  apply json_sentence. rewrite <- app_assoc in K. exact K.
Qed.
End P.
Print Assumptions C77_json.

(** ** Before a closing bracket the value 1 is inserted *)
Section Q.
Context {F : Type}.
Variable unescape : list char -> list char.
Variable int_of : list char -> Z.
Variable float_of : list char -> F.
Notation E := (json_E unescape int_of float_of).
Notation is_json := (is_json unescape int_of float_of).
Notation value := (jvalue (F := F)).
Notation member := (jmember unescape (F := F)).
Notation top := (json_parser (F := F)).
Notation sym := (token + string)%type.
Notation KEY := "'""a""'"%string.

Definition closes (t : token) : Prop := is_punct "]" t \/ is_punct "}" t.
Definition joins (t : token) : Prop := is_punct "," t \/ is_punct ":" t.
(** what may stand next to each other in a repaired text *)
Definition pair_ok (a b : sym) : Prop :=
  (a = inr KEY -> exists t, b = inl t /\ is_punct ":" t) /\
  (forall c, a = inl c -> joins c -> forall t, b = inl t -> ~ closes t /\ ~ joins t).
Definition head_ok (a : sym) : Prop := forall t, a = inl t -> ~ closes t /\ ~ joins t.
Definition last_ok (a : sym) : Prop := a <> inr KEY /\ forall c, a = inl c -> ~ joins c.
Definition chain (w : list sym) : Prop := forall u a b w', w = u ++ a :: b :: w' -> pair_ok a b.
Definition text (w : list sym) : Prop := chain w /\ (exists a l, w = a :: l /\ head_ok a) /\ (exists l a, w = l ++ [a] /\ last_ok a).

Lemma chain_one a : chain [a].
Proof using Type. intros u x b w' Q. destruct u as [|? [|? ?]]; discriminate. Qed.
Lemma chain_nil : chain [].
Proof using Type. intros u x b w' Q. destruct u; discriminate. Qed.
Lemma chain_cons a b w : pair_ok a b -> chain (b :: w) -> chain (a :: b :: w).
Proof using Type. intros H K [|x u] p q w' Q; cbn in Q; [injection Q as <- <- _; auto|]. injection Q as _ Q. eapply K; eauto. Qed.
Lemma chain_app w1 a b w2 : chain (w1 ++ [a]) -> chain (b :: w2) -> pair_ok a b -> chain (w1 ++ a :: b :: w2).
Proof using Type.
  intros H1 H2 H. induction w1 as [|x w1 IH]; cbn; [apply chain_cons; auto|].
  assert (H3 : chain (w1 ++ [a])) by (intros u p q w' Q; apply (H1 (x :: u) p q w'); cbn; rewrite Q; reflexivity).
  destruct w1 as [|y w1]; cbn in *; apply chain_cons; auto; [apply (H1 [] x a [])|apply (H1 [] x y (w1 ++ [a]))]; reflexivity.
Qed.
Lemma pair_last a b : last_ok a -> pair_ok a b.
Proof using Type. intros [H1 H2]. split; [congruence|]. intros c -> Hc. destruct (H2 c eq_refl Hc). Qed.
Lemma pair_head a b : a <> inr KEY -> head_ok b -> pair_ok a b.
Proof using Type. intros H1 H2. split; [congruence|]. intros c _ _ t Q. apply H2. exact Q. Qed.
(** texts side by side *)
Lemma text_then w b w2 : text w -> chain (b :: w2) -> chain (w ++ b :: w2).
Proof using Type.
  intros (H1 & _ & l & a & -> & H2) H. rewrite <- app_assoc. apply chain_app; auto. apply pair_last; auto.
Qed.
Lemma then_text a w : a <> inr KEY -> text w -> chain (a :: w).
Proof using Type. intros H1 (H2 & (b & l & -> & H3) & _). apply chain_cons; auto. apply pair_head; auto. Qed.
Lemma text_last a w : text w -> exists l b, a :: w = l ++ [b] /\ last_ok b.
Proof using Type. intros (_ & _ & l & b & -> & H). exists (a :: l), b. auto. Qed.

Lemma kind_joins k t : is_kind k t -> k <> "punct"%string -> ~ joins t /\ ~ closes t.
Proof using Type. intros K N. split; intros [H|H]; apply (punct_kind _ _ _ H) in K; auto. Qed.

Section Inside.
Variable P : list sym -> Prop.
(** items separated by commas; an item is a text *)
Lemma items_text A (p : gram token json_V A) : (forall w v, lang E A p w v -> P w -> text w) ->
  forall w l, lang E _ (GMany (seqr (punct ",") p)) w l -> (forall a b c, w = a ++ b ++ c -> P b) ->
  w = [] \/ (chain w /\ (exists t l, w = inl t :: l /\ is_punct "," t) /\ exists l b, w = l ++ [b] /\ last_ok b).
Proof using Type.
  intros Hp w. remember (List.length w) as n eqn:Hn. revert w Hn. induction n as [n IH] using (well_founded_induction lt_wf). intros w -> l H HP.
  apply lang_inv in H as [[-> _]|(w1 & w2 & v1 & l' & -> & _ & K1 & K2)]; [auto|right].
  apply lang_inv in K1 as (u1 & u2 & x1 & x2 & -> & _ & K3 & K4). apply (punct_word unescape int_of float_of) in K3 as [-> K3]. cbn [app] in *.
  assert (T : text u2).
  { apply (Hp _ _ K4). apply (HP [inl x1] u2 w2). reflexivity. }
  destruct (IH (List.length w2) ltac:(cbn; rewrite app_length; lia) w2 eq_refl l' K2) as [->|(C & (t & r & -> & Ht) & L)].
  - intros a b c ->. apply (HP (inl x1 :: u2 ++ a) b c). cbn. rewrite <- app_assoc. reflexivity.
  - rewrite app_nil_r. split; [apply then_text; auto; discriminate|]. split; [eauto|]. apply text_last. auto.
  - split; [|split; [eauto|]].
    + rewrite app_comm_cons. destruct T as (T1 & (b & q & -> & T2) & lq & a & Q & T3). cbn [app]. apply chain_cons; [apply pair_head; [discriminate|auto]|].
      change (b :: q ++ inl t :: r) with ((b :: q) ++ inl t :: r). rewrite Q. rewrite <- app_assoc. cbn [app].
      apply chain_app; [rewrite <- Q; auto|auto|apply pair_last; auto].
    + destruct L as (l0 & b & Q & L). rewrite Q. exists (inl x1 :: u2 ++ l0), b. split; [|auto]. cbn. rewrite app_assoc. reflexivity.
Qed.
Lemma sep_text A (p : gram token json_V A) : (forall w v, lang E A p w v -> P w -> text w) ->
  forall w l, lang E _ (sep_by p (punct ",")) w l -> (forall a b c, w = a ++ b ++ c -> P b) -> w = [] \/ text w.
Proof using Type.
  intros Hp w l H HP. apply lang_inv in H as (o & H & _). apply lang_inv in H as [[-> _]|(x & _ & H)]; [auto|right].
  apply lang_inv in H as (w1 & w2 & v1 & l' & -> & _ & K1 & K2).
  assert (T : text w1) by (apply (Hp _ _ K1); apply (HP [] w1 w2); reflexivity).
  destruct (items_text A p Hp w2 l' K2) as [->|(C & (t & r & -> & Ht) & L)]; [|rewrite app_nil_r; auto|].
  - intros a b c ->. apply (HP (w1 ++ a) b c). rewrite <- app_assoc. reflexivity.
  - split; [apply text_then; auto|]. destruct T as (_ & (a & q & -> & T2) & _). split; [exists a, (q ++ inl t :: r); auto|].
    destruct L as (l0 & b & Q & L). rewrite Q. exists ((a :: q) ++ l0), b. split; [|auto]. rewrite app_assoc. reflexivity.
Qed.
Lemma between_text A (p : gram token json_V A) a b : bracket a b ->
  (forall w v, lang E A p w v -> (forall x y z, w = x ++ y ++ z -> P y) -> w = [] \/ text w) ->
  forall w v, lang E _ (between (punct (String a "")) (punct (String b "")) p) w v -> (forall x y z, w = x ++ y ++ z -> List.length y < List.length w -> P y) -> text w.
Proof using Type.
  intros HB Hp w v H HP. apply lang_inv in H as (w1 & w2 & v1 & v2 & -> & _ & K1 & K2). apply (punct_word unescape int_of float_of) in K1 as [-> K1].
  apply lang_inv in K2 as (w3 & w4 & v3 & v4 & -> & _ & K2 & K3). apply (punct_word unescape int_of float_of) in K3 as [-> K3]. cbn [app] in *.
  assert (Ha : head_ok (inl v1)).
  { intros t Q. injection Q as <-. split; intros [K|K]; pose proof (punct_is _ _ _ K1 K) as Q; destruct HB as [[-> ->]|[-> ->]]; discriminate. }
  assert (Hb : last_ok (inl v4)).
  { split; [discriminate|]. intros c Q. injection Q as <-. intros [K|K]; pose proof (punct_is _ _ _ K3 K) as Q; destruct HB as [[-> ->]|[-> ->]]; discriminate. }
  assert (HA : last_ok (inl v1)).
  { split; [discriminate|]. intros c Q. injection Q as <-. apply Ha. reflexivity. }
  split; [|split; [eauto|exists (inl v1 :: w3), (inl v4); auto]].
  destruct (Hp w3 v3 K2) as [->|T].
  - intros x y z ->. apply (HP (inl v1 :: x) y (z ++ [inl v4])); cbn; rewrite <- ?app_assoc; auto. rewrite !app_length. lia.
  - cbn. apply chain_cons; [apply pair_last; auto|apply chain_one].
  - pose proof (text_then w3 (inl v4) [] T (chain_one _)) as C. destruct T as (_ & (c & q & -> & T2) & _).
    cbn [app] in *. apply chain_cons; auto. apply pair_head; [discriminate|auto].
Qed.
End Inside.

Lemma value_text : forall n w v, List.length w < n -> lang E _ value w v -> text w.
Proof using Type.
  induction n as [|n IH]; intros w v Hn H; [lia|].
  assert (IHv : forall (w : list sym) v, lang E _ value w v -> List.length w < n -> text w) by (intros; eapply IH; eauto).
  do 2 apply lang_inv in H. apply lang_inv in H as [H|H]; [apply lang_inv in H as [H|H]|].
  - assert (exists a, w = [a] /\ head_ok a /\ last_ok a) as (a & -> & A1 & A2).
    { apply lang_inv in H as [H|[-> _]].
      - apply (scalar_word unescape int_of float_of) in H as (t & k & -> & K & N). destruct (kind_joins _ _ K N) as [J1 J2]. exists (inl t). split; auto.
        split; [intros ? Q; injection Q as <-; auto|]. split; [discriminate|]. intros c Q. injection Q as <-. auto.
      - exists (inr "1"%string). split; auto. split; [discriminate|]. split; discriminate. }
    split; [apply chain_one|]. split; [eauto|exists [], a; auto].
  - do 2 apply lang_inv in H. refine (between_text (fun w => List.length w < n) _ _ "{" "}" (or_intror (conj eq_refl eq_refl)) _ w v H _).
    + intros u x Hx HP. apply lang_inv in Hx as (y & Hx & _). refine (sep_text (fun w => List.length w < n) _ _ _ u y Hx HP). clear H u x y Hx HP w v Hn.
      intros w v H Hn. apply lang_inv in H as (w1 & w2 & v1 & v2 & -> & _ & K1 & K2).
      apply lang_inv in K1 as (w3 & w4 & v3 & v4 & -> & _ & K3 & K4). apply (punct_word unescape int_of float_of) in K4 as [-> K4].
      rewrite !app_length in Hn. cbn in Hn. assert (T : text w2) by (eapply IHv; eauto; lia).
      assert (C : chain (inl v4 :: w2)) by (apply then_text; [discriminate|auto]).
      assert (exists a, w3 = [a] /\ head_ok a /\ pair_ok a (inl v4)) as (a & -> & A1 & A2).
      { apply lang_inv in K3 as [K3|[-> _]].
        - apply (tok_word unescape int_of float_of) in K3 as (t & -> & K). destruct (kind_joins _ _ K ltac:(discriminate)) as [J1 J2].
          exists (inl t). split; auto. split; [intros ? Q; injection Q as <-; auto|]. apply pair_last. split; [discriminate|]. intros c Q. injection Q as <-. auto.
        - exists (inr KEY). split; auto. split; [discriminate|]. split; [eauto|discriminate]. }
      cbn [app]. split; [apply chain_cons; auto|]. split; [eauto|].
      destruct T as (_ & _ & l & b & -> & T). exists (a :: inl v4 :: l), b. auto.
    + intros x y z -> Hl. lia.
  - do 2 apply lang_inv in H. refine (between_text (fun w => List.length w < n) _ _ "[" "]" (or_introl (conj eq_refl eq_refl)) _ w v H _).
    + intros u x Hx HP. apply lang_inv in Hx as (y & Hx & _). refine (sep_text (fun w => List.length w < n) _ _ IHv u y Hx HP).
    + intros x y z -> Hl. lia.
Qed.
Lemma pairs u a b w v : lang E _ value (u ++ a :: b :: w) v -> pair_ok a b.
Proof using Type. intros H. apply value_text with (n := S (List.length (u ++ a :: b :: w))) in H as (C & _); [|lia]. eapply C; reflexivity. Qed.

(** brackets are balanced *)
Definition punctb (a : ascii) (t : token) : bool := String.eqb (tk_kind t) "punct" && chars_eqb (tk_value t) [N_of_ascii a].
Lemma punctb_is a t : punctb a t = true <-> is_punct a t.
Proof using Type. unfold punctb, is_punct. rewrite andb_true_iff, String.eqb_eq, chars_eqb_eq. tauto. Qed.
Lemma punctb_at a b t : is_punct a t -> punctb b t = Ascii.eqb a b.
Proof using Type.
  intros H. destruct (Ascii.eqb_spec a b) as [->|N]; [apply punctb_is; auto|]. destruct (punctb b t) eqn:Q; auto.
  apply punctb_is in Q. exfalso. apply N. eapply punct_is; eauto.
Qed.
Lemma punctb_not k b t : is_kind k t -> k <> "punct"%string -> punctb b t = false.
Proof using Type. intros H N. destruct (punctb b t) eqn:Q; auto. apply punctb_is in Q. destruct (N (punct_kind _ _ _ Q H)). Qed.
Definition count (a : ascii) (w : list token) : nat := List.length (filter (punctb a) w).
Lemma count_app a u w : count a (u ++ w) = count a u + count a w.
Proof using Type. unfold count. rewrite filter_app, app_length. reflexivity. Qed.
Lemma count_cons a t w : count a (t :: w) = (if punctb a t then 1 else 0) + count a w.
Proof using Type. unfold count. cbn. destruct (punctb a t); reflexivity. Qed.
Lemma count_nil a : count a [] = 0.
Proof using Type. reflexivity. Qed.
Lemma balanced a b : bracket a b ->
  (forall w v, is_json w v -> count a w = count b w) /\
  (forall w l, elements unescape int_of float_of w l -> count a w = count b w) /\
  (forall w l, members unescape int_of float_of w l -> count a w = count b w).
Proof using Type.
  intros HB. apply json_mutind; intros; repeat (rewrite count_app || rewrite count_cons || rewrite count_nil).
  1: { assert (exists k, is_kind k t /\ k <> "punct"%string) as (k & K & N) by (destruct H; eexists; (split; [eassumption|discriminate])).
       rewrite !(punctb_not k _ t K N). reflexivity. }
  all: repeat match goal with
         | H : is_punct ?c ?t |- _ => rewrite (punctb_at c a t H), (punctb_at c b t H); clear H
         | H : is_kind ?k ?t |- _ => rewrite (punctb_not k a t H), (punctb_not k b t H) by discriminate; clear H
         end; destruct HB as [[-> ->]|[-> ->]]; cbn [Ascii.eqb Bool.eqb]; lia.
Qed.

Lemma json_inserts_what l w : inserts E value l w ->
  (exists b, w = [inl (ptok b)] /\ In b [":"; "{"; "}"; ","; "["; "]"]%char) \/ w = [inr "1"%string] \/ w = [inr KEY].
Proof using Type.
  intros (B & q & Ho & Hq). revert B q Ho Hq.
  enough (K : everywhere E (fun B q => insert_node q l w -> (exists b, w = [inl (ptok b)] /\ In b [":"; "{"; "}"; ","; "["; "]"]%char) \/ w = [inr "1"%string] \/ w = [inr KEY]) value) by exact K.
  apply everywhere_gall; [intros d|]; solve_gall; intros [-> ->]; try (right; left; reflexivity); try (right; right; reflexivity);
    left; eexists; (split; [reflexivity|]); cbn; auto 10.
Qed.

Theorem C77_json_inserted : forall i1 k1 toks s1 y s3 v mi n r,
  is_kind "integer" i1 -> int_of (tk_value i1) = 1%Z ->
  is_kind "string" k1 -> unescape (tk_value k1) = ascii_chars "a" ->
  toks = s1 ++ y :: s3 -> ends_sep s1 -> is_punct "]" y \/ is_punct "}" y -> is_json (s1 ++ i1 :: y :: s3) v ->
  (forall p q, p <= List.length toks -> q <= List.length toks -> loc_from_stream toks p = loc_from_stream toks q -> p = q) ->
  (0 < mi)%Z -> parse E n top toks true mi lexer_get_loc linecol_fmt = Ret r ->
  exists e, unwrap r false = Raises [e] /\ unwrap r true = Returns v /\
    ei_loc e = loc_from_stream toks (List.length s1) /\ ei_op e = Some (Insert "1").
Proof using Type.
  intros i1 k1 toks s1 y s3 v mi n r Ki I1 Kk K1 -> Hs Hy Hv Hinj Hm H.
  set (fill := fun l => if String.eqb l "1" then [i1] else [k1]).
  pose proof Hs as (s0 & c & Q & Hc).
  assert (Brk : exists a b, bracket a b /\ is_punct b y).
  { destruct Hy as [Hy|Hy]; eexists; eexists; (split; [|exact Hy]); [left|right]; split; reflexivity. }
  destruct Brk as (a & b & HB & Pb).
  assert (Cy : count a (s1 ++ s3) = S (count b (s1 ++ s3))).
  { apply (proj1 (balanced a b HB)) in Hv. rewrite !count_app, !count_cons, (punctb_not _ _ i1 Ki), (punctb_not _ _ i1 Ki) in Hv by discriminate.
    rewrite (punctb_at b a y Pb), (punctb_at b b y Pb), Ascii.eqb_refl in Hv. rewrite !count_app.
    destruct HB as [[-> ->]|[-> ->]]; cbn [Ascii.eqb Bool.eqb] in *; lia. }
  destruct (C77_placeholder token json_V E fill n _ value "1" s1 (y :: s3) v mi lexer_get_loc linecol_fmt (loc_from_stream (s1 ++ y :: s3)) r
    (json_wf_E _ _ _) (json_wf (F := F)) (lexer_cohere _) (json_lay _ _ _ _) Hinj (json_completable _ _ _) (json_LL1 _ _ _) (json_quiet _ _ _)
    (json_guarded _ _ _) (json_one_token _ _ _) (json_layout_free _ _ _) (json_eof_free _ _ _) (json_single_withs _ _ _)
    (json_fill _ _ _ fill i1 k1 eq_refl eq_refl Ki I1 Kk K1)
    (proj1 (json_gap unescape int_of float_of i1 Ki I1) _ _ Hv s1 (y :: s3) eq_refl (or_intror Hs)))
    as (e & U1 & U2 & L & O & _); auto.
  - cbn. intros (w & u & K). subst s1. unfold sentence in K. rewrite !map_app, <- !app_assoc in K. cbn [map app] in K.
    destruct (proj2 (pairs _ _ _ _ _ K) c eq_refl Hc y eq_refl) as [N _]. apply N. exact Hy.
  - intros y' s3' u Q' K. injection Q' as <- <-. apply (json_sentence unescape int_of float_of), (proj1 (balanced a b HB)) in K. lia.
  - intros l w u Hi K. apply json_inserts_what in Hi as [(d & -> & Hd)|[-> | ->]]; auto; exfalso.
    + assert (Hd' : d = "["%char \/ d = "{"%char \/ closes (ptok d) \/ joins (ptok d)).
      { unfold closes, joins. cbn [In] in Hd.
        destruct Hd as [<-|[<-|[<-|[<-|[<-|[<-|[]]]]]]]; auto; right; right; [right|left|right|left]; first [left; apply ptok_self|right; apply ptok_self]. }
      assert (G : forall a' b', bracket a' b' -> d <> a').
      { intros a' b' HB' ->. assert (K' : sentence E value (s1 ++ ptok a' :: y :: s3) u) by (unfold sentence; rewrite map_app; exact K).
        apply (json_sentence unescape int_of float_of), (proj1 (balanced a' b' HB')) in K'. apply (proj1 (balanced a' b' HB')) in Hv.
        rewrite !count_app, !(count_cons _ (ptok a')), (punctb_at a' a' _ (ptok_self a')), (punctb_at a' b' _ (ptok_self a')), Ascii.eqb_refl in K'.
        rewrite !count_app, !(count_cons _ i1), !(punctb_not _ _ i1 Ki) in Hv by discriminate.
        destruct HB' as [[-> ->]|[-> ->]]; cbn [Ascii.eqb Bool.eqb] in *; lia. }
      destruct Hd' as [->|[->|Hd']]; [apply (G "["%char "]"%char); [left; auto|auto]|apply (G "{"%char "}"%char); [right; auto|auto]|].
      subst s1. rewrite map_app, <- app_assoc in K. cbn [map app] in K.
      destruct (proj2 (pairs _ _ _ _ _ K) c eq_refl Hc _ eq_refl). tauto.
    + cbn [map app] in K. destruct (proj1 (pairs _ _ _ _ _ K) eq_refl) as (t & Qt & Pt). injection Qt as <-.
      destruct Hy as [Hy|Hy]; pose proof (punct_is _ _ _ Hy Pt); discriminate.
  - exists e. auto.
Qed.
End Q.
Print Assumptions C77_json_inserted.

(** [1, {"a": }]: the value behind the colon is missing *)
Definition ex_g1 : list token := [mtok "punct" "[" 0; mtok "integer" "1" 1; mtok "punct" "," 2; mtok "punct" "{" 4; mtok "string" "a" 5; mtok "punct" ":" 8].
Definition ex_g2 : list token := [mtok "punct" "}" 10; mtok "punct" "]" 11].
Example C77_case_json :
  let J := is_json (fun x => x) (fun x => Z.of_nat (List.length x)) (fun x : list char => x) in
  let i1 := mtok "integer" "1" 9 in
  ends_sep ex_g1 /\ J (ex_g1 ++ i1 :: ex_g2) (JList [JInt 1; JDict [(ascii_chars "a", JInt 1)]]) /\
  (forall y s3, ex_g2 = y :: s3 -> ~ exists rest u, J (ex_g1 ++ y :: rest) u) /\
  (forall p q, p <= List.length (ex_g1 ++ ex_g2) -> q <= List.length (ex_g1 ++ ex_g2) ->
     loc_from_stream (ex_g1 ++ ex_g2) p = loc_from_stream (ex_g1 ++ ex_g2) q -> p = q) /\
  exists r e, lexer_parse ex_mJ 60 json_parser (ex_g1 ++ ex_g2) true = Ret r /\
    unwrap r false = Raises [e] /\ ei_loc e = Loc 10 0 10 /\ ei_op e = Some (Insert "1") /\
    unwrap r true = Returns (JList [JInt 1; JDict [(ascii_chars "a", JInt 1)]]).
Proof.
  cbv zeta. split; [|split; [|split; [|split]]].
  - exists [mtok "punct" "[" 0; mtok "integer" "1" 1; mtok "punct" "," 2; mtok "punct" "{" 4; mtok "string" "a" 5], (mtok "punct" ":" 8).
    split; [reflexivity|right; split; reflexivity].
  - apply (C61_texts _ _ _ (ex_g1 ++ mtok "integer" "1" 9 :: ex_g2) false). exists 60. eexists. split; vm_compute; reflexivity.
  - intros y s3 Q (rest & u & K). injection Q as <- _. apply (json_sentence (fun x => x) (fun x => Z.of_nat (List.length x)) (fun x : list char => x)) in K.
    unfold sentence in K. cbn [ex_g1 map app] in K.
    destruct (proj2 (pairs _ _ _ [inl (mtok "punct" "[" 0); inl (mtok "integer" "1" 1); inl (mtok "punct" "," 2); inl (mtok "punct" "{" 4); inl (mtok "string" "a" 5)]
      _ _ _ _ K) _ eq_refl (or_intror (conj eq_refl eq_refl)) _ eq_refl) as [N _].
    apply N. right. split; reflexivity.
  - intros p q Hp Hq Q. cbn in Hp, Hq.
    do 9 (destruct p as [|p]; [do 9 (destruct q as [|q]; [first [reflexivity|discriminate Q]|]); lia|]). lia.
  - do 2 eexists. repeat (split; [vm_compute; reflexivity|]). vm_compute. reflexivity.
Qed.
