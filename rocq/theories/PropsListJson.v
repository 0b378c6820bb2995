(** C76 for the JSON parser of the test-suite: the beginning of a text that has
    no mistake in it is in the value (JsonPartSpec.v). *)
From Verif Require Import Fuel ApiSpec ApiProofs Locations Json JsonSpec JsonProofs JsonLL PropsJson PegSpec PropsPeg LL LangInv PropsTotal FirstSpec PropsFirst PropsLL Examples
  Mend PropsMend Miss PropsMiss PropsMissJson JsonPartSpec ListSpec Lists PropsList.
From Coq Require Import Lia.
Import ListNotations.

Scheme begins_ind2 := Minimality for begins Sort Prop
  with list_begins_ind2 := Minimality for list_begins Sort Prop
  with dict_begins_ind2 := Minimality for dict_begins Sort Prop
  with member_begins_ind2 := Minimality for member_begins Sort Prop.
Combined Scheme begins_mutind from begins_ind2, list_begins_ind2, dict_begins_ind2, member_begins_ind2.

Section P.
Context {F : Type}.
Variable unescape : list char -> list char.
Variable int_of : list char -> Z.
Variable float_of : list char -> F.
Notation E := (json_E unescape int_of float_of).
Notation is_json := (is_json unescape int_of float_of).
Notation elements := (elements unescape int_of float_of).
Notation members := (members unescape int_of float_of).
Notation begins := (begins unescape int_of float_of).
Notation list_begins := (list_begins unescape int_of float_of).
Notation dict_begins := (dict_begins unescape int_of float_of).
Notation member_begins := (member_begins unescape int_of float_of).
Notation value := (jvalue (F := F)).
Notation member := (jmember unescape (F := F)).
Notation scal := (jscalar unescape int_of float_of).
Notation top := (json_parser (F := F)).
Notation sent := (sentence E).

Variable s : list token.
Notation at_ := (loc_from_stream s).
Notation len := (List.length s).
Notation get := lexer_get_loc.
Notation lay := (exactpos s at_).
Notation peg := (peg E s (fun i => loc_col (at_ i))).
Notation keeps := (keeps E s at_).
Notation firm := (firm E s at_).
Notation fits := (everywhere E (fit E s at_)).
Definition fo (d : nat) (o : option token) : Prop := True.

Lemma HG : forall d, gok lay (E d).
Proof. intros d. apply (lay_gok _ _ _ _ _ (json_wf_E _ _ _) (json_wf (F := F)) (json_lay unescape int_of float_of s)). Qed.
Lemma fits_value : fits value.
Proof.
  exact (fits_g E value s get at_ (json_wf_E _ _ _) (json_wf (F := F)) (lexer_cohere _) (json_lay _ _ _ _) (json_completable _ _ _) (json_LL1 _ _ _) (json_quiet _ _ _)
    (json_guarded _ _ _) (json_one_token _ _ _) (json_eof_free unescape int_of float_of)).
Qed.
Lemma fits_lab : fits (E 0). Proof. apply ev_delay, fits_value. Qed.
Lemma fits_alt : fits (GAlt (GAlt (GRecoverWith scal (JInt 1) "1") (GRecover (jdict unescape (F := F)))) (GRecover (jlist (F := F)))).
Proof. eapply ev_label, fits_lab. Qed.
Lemma fits_list : fits (jlist (F := F)). Proof. eapply ev_recover, ev_alt_r, fits_alt. Qed.
Lemma fits_dict : fits (jdict unescape (F := F)). Proof. eapply ev_recover, ev_alt_r, ev_alt_l, fits_alt. Qed.
Lemma fits_left : fits (GAlt (GRecoverWith scal (JInt 1) "1") (GRecover (jdict unescape (F := F)))). Proof. eapply ev_alt_l, fits_alt. Qed.
Lemma fits_scal : fits (GRecoverWith scal (JInt 1) "1"). Proof. eapply ev_alt_l, fits_left. Qed.
Lemma fits_members : fits (sep_by member (punct ",")).
Proof. eapply ev_fmap, ev_seq_l, ev_seq_r, ev_label, fits_dict. Qed.
Lemma fits_elements : fits (sep_by value (punct ",")).
Proof. eapply ev_fmap, ev_seq_l, ev_seq_r, ev_label, fits_list. Qed.
Lemma fits_member : fits member.
Proof. eapply ev_seq_l, ev_maybe, ev_fmap, fits_members. Qed.
Lemma fits_key : fits (GRecoverWith (jstring unescape) (ascii_chars "a") "'""a""'").
Proof. eapply ev_seq_l, ev_seq_l, fits_member. Qed.
Lemma fok A (p : gram token json_V A) : fits p -> gok lay p.
Proof. intros H. apply (fit_all _ _ _ _ _ H). Qed.

Notation Hco := (lexer_cohere s).
Notation id_ := (fun x : lay => x).
Notation HEw := (json_wf_E unescape int_of float_of).
Notation Kr := (keeps_r E s get at_ lay Hco id_ HG).
Notation Kl := (keeps_l E s get at_ lay Hco id_ HG).
Notation Ksl := (keeps_seq_l E s get at_ lay Hco id_ HG).
Notation Rd := (rd E s get at_ HEw Hco HG fo (json_ll1 unescape int_of float_of fo (fun _ _ _ => I))).
Notation Nope := (nope E s get at_ HEw Hco HG).

Lemma at_head i t r : skipn i s = t :: r -> nth_error s i = Some t.
Proof using Type. intros H. rewrite <- hd_skipn, H. reflexivity. Qed.
Lemma step i w rest : i <= len -> skipn i s = w ++ rest -> skipn (i + List.length w) s = rest /\ i + List.length w <= len.
Proof using Type. apply skipn_next. Qed.
Lemma step1 i t rest : i <= len -> skipn i s = t :: rest -> skipn (i + 1) s = rest /\ i + 1 <= len.
Proof using Type. intros H1 H2. apply (skipn_next s i [t] rest H1 H2). Qed.

Lemma read_value w v i rest : is_json w v -> i <= len -> skipn i s = w ++ rest -> peg _ value 0 i (PSucc v (i + List.length w)).
Proof. intros H Hi Hs. eapply (Rd _ value 0%Z i (fun _ => True)); eauto using fits_value. - exact (fun _ _ => I). - apply json_sentence. exact H. Qed.
Lemma read_member k c w v i rest : is_kind "string" k -> is_punct ":" c -> is_json w v -> i <= len -> skipn i s = (k :: c :: w) ++ rest ->
  peg _ member 0 i (PSucc (unescape (tk_value k), v) (i + List.length (k :: c :: w))).
Proof.
  intros Hk Hc H Hi Hs. eapply (Rd _ member 0%Z i (fun _ => True)); eauto using fits_member.
  - apply member_ll1. exact (fun _ _ => I).
  - apply sent_member; auto. apply json_sentence. exact H.
Qed.
Lemma read_punct a t i r : is_punct a t -> skipn i s = t :: r -> peg _ (punct (String a "")) 0 i (PSucc t (i + 1)).
Proof. intros [H1 H2] Hs. apply pg_sym; [eapply at_head; eauto|]. unfold token_eqb. cbn. rewrite H1, H2. cbn. rewrite N.eqb_refl. reflexivity. Qed.
Lemma read_key k i r : is_kind "string" k -> i <= len -> skipn i s = k :: r ->
  peg _ (GRecoverWith (jstring unescape) (ascii_chars "a") "'""a""'") 0 i (PSucc (unescape (tk_value k)) (i + 1)).
Proof.
  intros H Hi Hs. apply (Rd _ _ 0%Z i (fun _ => True) [k] r); auto using fits_key.
  - exact I.
  - constructor. eapply la_fmap; [apply (sent_token unescape int_of float_of "string"%string k H)|reflexivity].
Qed.

Lemma read_elements w vs : elements w vs -> forall i rest, i <= len -> skipn i s = w ++ rest ->
  exists v vs' j, vs = v :: vs' /\ peg _ value 0 i (PSucc v j) /\ more_items E s at_ value (punct ",") 0 j vs' (i + List.length w).
Proof.
  induction 1 as [w v H|w v c w' vs H Hc He IH]; intros i rest Hi Hs.
  - exists v, [], (i + List.length w). split; auto. split; [eapply read_value; eauto|constructor].
  - rewrite <- app_assoc in Hs. cbn [app] in Hs. pose proof (read_value _ _ _ _ H Hi Hs) as R.
    destruct (step _ _ _ Hi Hs) as [Hs1 Hi1]. destruct (step1 _ _ _ Hi1 Hs1) as [Hs2 Hi2].
    destruct (IH _ _ Hi2 Hs2) as (v' & vs' & j & -> & R' & M). exists v, (v' :: vs'), (i + List.length w). split; auto. split; auto.
    rewrite app_length. cbn [List.length]. replace (i + (List.length w + S (List.length w'))) with (i + List.length w + 1 + List.length w') by lia.
    pose proof (peg_le E s get at_ lay Hco id_ HG _ _ _ _ _ _ R' (fok _ _ fits_value) Hi2).
    eapply mi_cons; [|eapply read_punct; eauto|exact R'|exact M]. lia.
Qed.
Lemma read_members w vs : members w vs -> forall i rest, i <= len -> skipn i s = w ++ rest ->
  exists v vs' j, vs = v :: vs' /\ peg _ member 0 i (PSucc v j) /\ more_items E s at_ member (punct ",") 0 j vs' (i + List.length w).
Proof.
  induction 1 as [k c w v Hk Hc H|k c w v c' w' kvs Hk Hc H Hc' Hm IH]; intros i rest Hi Hs.
  - eexists _, [], _. split; auto. split; [eapply read_member; eauto|constructor].
  - replace ((k :: c :: w ++ c' :: w') ++ rest) with ((k :: c :: w) ++ c' :: w' ++ rest) in Hs by (cbn; rewrite <- app_assoc; reflexivity).
    pose proof (read_member _ _ _ _ _ _ Hk Hc H Hi Hs) as R.
    destruct (step _ _ _ Hi Hs) as [Hs1 Hi1]. destruct (step1 _ _ _ Hi1 Hs1) as [Hs2 Hi2].
    destruct (IH _ _ Hi2 Hs2) as (v' & vs' & j & -> & R' & M). eexists _, (v' :: vs'), _. split; auto. split; [exact R|].
    replace (i + List.length (k :: c :: w ++ c' :: w')) with (i + List.length (k :: c :: w) + 1 + List.length w') by (cbn; rewrite app_length; cbn; lia).
    pose proof (peg_le E s get at_ lay Hco id_ HG _ _ _ _ _ _ R' (fok _ _ fits_member) Hi2).
    eapply mi_cons; [|eapply read_punct; eauto|exact R'|exact M]. lia.
Qed.

Lemma no_scalar t i r : i <= len -> skipn i s = t :: r -> (is_punct "[" t \/ is_punct "{" t) ->
  peg _ (GRecoverWith scal (JInt 1) "1") 0 i (PFail false).
Proof.
  intros Hi Hs Ht. apply Nope; auto using fits_scal.
  - intros [v H]. apply sent_inv in H. apply (scalar_start unescape int_of float_of) in H as (t' & Q & _). discriminate.
  - rewrite (at_head _ _ _ Hs). intros (w & v & H). apply sent_inv in H. apply (scalar_start unescape int_of float_of) in H as (t' & Q & H). injection Q as <- _.
    destruct Ht as [P|P]; decompose [or] H; match goal with H : is_kind _ _ |- _ => apply (punct_kind _ _ _ P) in H; discriminate end.
Qed.
Lemma no_dict t i r : i <= len -> skipn i s = t :: r -> is_punct "[" t ->
  peg _ (GAlt (GRecoverWith scal (JInt 1) "1") (GRecover (jdict unescape (F := F)))) 0 i (PFail false).
Proof.
  intros Hi Hs P. apply Nope; auto using fits_left.
  - intros [v H]. apply sent_inv in H as [H|H]; apply sent_inv in H.
    + apply (scalar_start unescape int_of float_of) in H as (t' & Q & _). discriminate.
    + apply (dict_start unescape int_of float_of) in H as (t' & w' & Q & _). discriminate.
  - rewrite (at_head _ _ _ Hs). intros (w & v & H). apply sent_inv in H as [H|H]; apply sent_inv in H.
    + apply (scalar_start unescape int_of float_of) in H as (t' & Q & H). injection Q as <- _.
      decompose [or] H; match goal with H : is_kind _ _ |- _ => apply (punct_kind _ _ _ P) in H; discriminate end.
    + apply (dict_start unescape int_of float_of) in H as (t' & w' & Q & H). injection Q as <- _. apply (punct_is _ _ _ P) in H. discriminate.
Qed.
Lemma firm_list t i r : i <= len -> skipn i s = t :: r -> is_punct "[" t -> firm (GRecover (jlist (F := F))) 0 i.
Proof.
  intros Hi Hs P H. apply open_inv in H. apply open_inv in H. revert H.
  apply (firm_seq_read E s get at_ lay Hco id_ HG _ _ _ _ _ _ _ _ _ _ (read_punct _ _ _ _ P Hs)); [lia| |auto].
  apply fok. eapply ev_seq_l, ev_label, fits_list.
Qed.
Lemma firm_dict t i r : i <= len -> skipn i s = t :: r -> is_punct "{" t -> firm (GRecover (jdict unescape (F := F))) 0 i.
Proof.
  intros Hi Hs P H. apply open_inv in H. apply open_inv in H. revert H.
  apply (firm_seq_read E s get at_ lay Hco id_ HG _ _ _ _ _ _ _ _ _ _ (read_punct _ _ _ _ P Hs)); [lia| |auto].
  apply fok. eapply ev_seq_l, ev_label, fits_dict.
Qed.
Lemma firm_value_list t i r : i <= len -> skipn i s = t :: r -> is_punct "[" t -> firm value 0 i.
Proof. intros Hi Hs P H. apply open_inv in H. apply open_inv in H. apply open_inv in H as [_ H]. exact (firm_list _ _ _ Hi Hs P H). Qed.
Lemma firm_value_dict t i r : i <= len -> skipn i s = t :: r -> is_punct "{" t -> firm value 0 i.
Proof. intros Hi Hs P H. apply open_inv in H. apply open_inv in H. apply open_inv in H as [H _]. apply open_inv in H as [_ H]. exact (firm_dict _ _ _ Hi Hs P H). Qed.
Lemma json_nonempty w v : is_json w v -> w <> [].
Proof. intros H. destruct H; discriminate. Qed.

Lemma N_eqb_punct a : wf_node token (punct (F := F) (String a "")).
Proof. cbn. rewrite N.eqb_refl. reflexivity. Qed.
Lemma parts :
  (forall w P, begins w P -> forall i rest, i <= len -> skipn i s = w ++ rest ->
     keeps value 0 i P (i + List.length w) /\ (w <> [] -> firm value 0 i)) /\
  (forall w P, list_begins w P -> forall i rest, i <= len -> skipn i s = w ++ rest ->
     keeps (sep_by value (punct ",")) 0 i P (i + List.length w)) /\
  (forall w P, dict_begins w P -> forall i rest, i <= len -> skipn i s = w ++ rest ->
     keeps (sep_by member (punct ",")) 0 i P (i + List.length w)) /\
  (forall w P, member_begins w P -> forall i rest, i <= len -> skipn i s = w ++ rest ->
     keeps member 0 i P (i + List.length w) /\ firm member 0 i).
Proof.
  assert (Gv : gok lay value) by (apply fok, fits_value).
  assert (Gm : gok lay member) by (apply fok, fits_member).
  assert (Ge : gok lay (sep_by value (punct ","))) by (apply fok, fits_elements).
  assert (Gs : gok lay (sep_by member (punct ","))) by (apply fok, fits_members).
  assert (Gp : forall a, gok lay (punct (F := F) (String a ""))) by (intros a; split; [split; [apply N_eqb_punct|intros []]|exact I]).
  assert (Gk : gok lay (GRecoverWith (jstring unescape (F := F)) (ascii_chars "a") "'""a""'")) by (apply fok, fits_key).
  assert (Gkc : gok lay (seql (GRecoverWith (jstring unescape (F := F)) (ascii_chars "a") "'""a""'") (punct ":"))) by (apply gok_seq; auto).
  apply begins_mutind.
  - intros i rest Hi Hs. cbn [List.length]. rewrite Nat.add_0_r. split; [|congruence]. apply (keeps_start E s get at_ lay Hco id_ HG); auto.
  - intros w v H i rest Hi Hs. pose proof (read_value _ _ _ _ H Hi Hs) as R. split.
    + apply (keeps_read E s get at_ lay Hco id_ HG); auto.
    + intros _. apply (firm_read E s get at_ lay Hco id_ HG _ _ _ _ _ _ R Gv Hi).
  - intros t w P Ht Hl IH i rest Hi Hs. cbn [app] in Hs. split; [|intros _; eapply firm_value_list; eauto].
    destruct (step1 _ _ _ Hi Hs) as [Hs1 Hi1]. specialize (IH _ _ Hi1 Hs1).
    replace (i + List.length (t :: w)) with (i + 1 + List.length w) by (cbn; lia).
    refine (keeps_delay E s at_ 0 0%Z i _ _ _). unfold json_E. apply keeps_label.
    apply (keeps_alt_r E s get at_ lay Hco id_ HG); auto; [eapply no_dict; eauto| |eapply firm_list; eauto|apply fok, fits_left].
    apply keeps_recover, keeps_label. unfold between, seqr. eapply keeps_impl.
    + apply (Kr _ _ _ _ _ _ _ _ _ _ (fun u => exists l, u = JList l /\ P l) _ (read_punct _ _ _ _ Ht Hs)); [|apply Gp| |exact Hi].
      * apply Kl; auto; [eapply keeps_fmap; [exact IH|]|].
        -- intros v u Pv Q. injection Q as <-.  eauto.
        -- apply fok. eapply ev_seq_l, ev_seq_r, ev_label, fits_list.
      * apply fok. eapply ev_seq_r, ev_label, fits_list.
    + intros v (u & (l & -> & Pl) & ->). eauto.
  - intros t w P Ht Hl IH i rest Hi Hs. cbn [app] in Hs. split; [|intros _; eapply firm_value_dict; eauto].
    destruct (step1 _ _ _ Hi Hs) as [Hs1 Hi1]. specialize (IH _ _ Hi1 Hs1).
    replace (i + List.length (t :: w)) with (i + 1 + List.length w) by (cbn; lia).
    refine (keeps_delay E s at_ 0 0%Z i _ _ _). unfold json_E. apply keeps_label.
    apply keeps_alt_l; [|intros H; apply open_inv in H as [_ H]; revert H; eapply firm_dict; eauto].
    apply (keeps_alt_r E s get at_ lay Hco id_ HG); auto; [eapply no_scalar; eauto| |eapply firm_dict; eauto|apply fok, fits_scal].
    apply keeps_recover, keeps_label. unfold between, seqr. eapply keeps_impl.
    + apply (Kr _ _ _ _ _ _ _ _ _ _ (fun u => exists kvs d, u = JDict d /\ is_dict kvs d /\ P kvs) _ (read_punct _ _ _ _ Ht Hs)); [|apply Gp| |exact Hi].
      * apply Kl; auto; [eapply keeps_fmap; [exact IH|]|].
        -- intros v u Pv Q. injection Q as <-. 
           exists v, (dict_of v). split; auto. split; auto. apply dict_of_is_dict.
        -- apply fok. eapply ev_seq_l, ev_seq_r, ev_label, fits_dict.
      * apply fok. eapply ev_seq_r, ev_label, fits_dict.
    + intros v (u & H & ->). exact H.
  - intros i rest Hi Hs. cbn [List.length]. rewrite Nat.add_0_r. apply (keeps_start E s get at_ lay Hco id_ HG); auto.
  - intros w vs H i rest Hi Hs. destruct (read_elements _ _ H _ _ Hi Hs) as (v & vs' & j & -> & R & M).
    apply (keeps_sep E s get at_ lay Hco id_ HG); auto. econstructor; eauto.
  - intros w P H IH Hw i rest Hi Hs. destruct (IH _ _ Hi Hs) as [K1 K2]. apply (keeps_sep_first E s get at_ lay Hco id_ HG); auto.
  - intros w vs c w' P H Hc Hb IH i rest Hi Hs. rewrite <- app_assoc in Hs. cbn [app] in Hs.
    destruct (read_elements _ _ H _ _ Hi Hs) as (v & vs' & j & -> & R & M).
    destruct (step _ _ _ Hi Hs) as [Hs1 Hi1]. destruct (step1 _ _ _ Hi1 Hs1) as [Hs2 Hi2].
    destruct (IH _ _ Hi2 Hs2) as [K1 K2].
    replace (i + List.length (w ++ c :: w')) with (i + List.length w + 1 + List.length w') by (rewrite app_length; cbn; lia).
    eapply (keeps_sep_next E s get at_ lay Hco id_ HG); [exact R|exact M|exact (read_punct _ _ _ _ Hc Hs1)|lia|exact K1|auto|auto].
  - intros i rest Hi Hs. cbn [List.length]. rewrite Nat.add_0_r. apply (keeps_start E s get at_ lay Hco id_ HG); auto.
  - intros w vs H i rest Hi Hs. destruct (read_members _ _ H _ _ Hi Hs) as (v & vs' & j & -> & R & M).
    apply (keeps_sep E s get at_ lay Hco id_ HG); auto. econstructor; eauto.
  - intros w P H IH i rest Hi Hs. destruct (IH _ _ Hi Hs) as [K1 K2]. apply (keeps_sep_first E s get at_ lay Hco id_ HG); auto.
  - intros w vs c w' P H Hc Hb IH i rest Hi Hs. rewrite <- app_assoc in Hs. cbn [app] in Hs.
    destruct (read_members _ _ H _ _ Hi Hs) as (v & vs' & j & -> & R & M).
    destruct (step _ _ _ Hi Hs) as [Hs1 Hi1]. destruct (step1 _ _ _ Hi1 Hs1) as [Hs2 Hi2].
    destruct (IH _ _ Hi2 Hs2) as [K1 K2].
    replace (i + List.length (w ++ c :: w')) with (i + List.length w + 1 + List.length w') by (rewrite app_length; cbn; lia).
    eapply (keeps_sep_next E s get at_ lay Hco id_ HG); [exact R|exact M|exact (read_punct _ _ _ _ Hc Hs1)|lia|exact K1|auto|auto].
  - intros k Hk i rest Hi Hs. cbn [app List.length] in *. pose proof (read_key _ _ _ Hk Hi Hs) as R.
    assert (Fk : firm (seql (GRecoverWith (jstring unescape (F := F)) (ascii_chars "a") "'""a""'") (punct ":")) 0 i).
    { apply (firm_seq_read E s get at_ lay Hco id_ HG _ _ _ _ _ _ _ _ _ _ R); auto. lia. }
    split.
    + unfold jmember, seq. eapply keeps_impl.
      * apply Ksl; auto. unfold seql. apply Kl; auto. apply (keeps_read E s get at_ lay Hco id_ HG _ _ _ _ _ _ R); auto.
      * cbn. intros u (a & b & -> & ->). reflexivity.
    + apply firm_seq; auto. intros v j R'. unfold seql in R'. apply peg_inv in R' as (x & y & e & R1 & R2 & _).
      pose proof (peg_det E s get at_ lay Hco id_ HG _ _ _ _ _ _ R R1 Gk Hi) as Q. injection Q as <- <-.
      destruct (step1 _ _ _ Hi Hs) as [_ Hi1]. pose proof (peg_le E s get at_ lay Hco id_ HG _ _ _ _ _ _ R2 (Gp _) Hi1). lia.
  - intros k c w P Hk Hc Hb IH i rest Hi Hs. cbn [app List.length] in *. pose proof (read_key _ _ _ Hk Hi Hs) as R.
    destruct (step1 _ _ _ Hi Hs) as [Hs1 Hi1]. destruct (step1 _ _ _ Hi1 Hs1) as [Hs2 Hi2]. destruct (IH _ _ Hi2 Hs2) as [K1 K2].
    assert (Rk : peg _ (seql (GRecoverWith (jstring unescape (F := F)) (ascii_chars "a") "'""a""'") (punct ":")) 0 i (PSucc (unescape (tk_value k)) (i + 1 + 1))).
    { pose proof (pg_seq E s (fun i => loc_col (at_ i)) _ _ _ _ _ (fun l _ => l) 0 i _ _ _ R (read_punct _ _ _ _ Hc Hs1)) as Q. exact Q. }
    split.
    + replace (i + S (S (List.length w))) with (i + 1 + 1 + List.length w) by lia.
      unfold jmember, seq. eapply keeps_impl; [apply (Kr _ _ _ _ _ _ _ _ _ _ _ _ Rk K1); auto|].
      cbn. intros u (b & Pb & ->). auto.
    + apply (firm_seq_read E s get at_ lay Hco id_ HG _ _ _ _ _ _ _ _ _ _ Rk); auto. lia.
Qed.
End P.

(** ** Whatever comes after a beginning without mistakes, the value is one that begins so *)
Theorem C76_json : forall F unescape int_of float_of n toks w rest (P : json F -> Prop) rec mi r,
  toks = w ++ rest -> begins unescape int_of float_of w P ->
  parse (json_E unescape int_of float_of) n json_parser toks rec mi lexer_get_loc linecol_fmt = Ret r ->
  (forall v, unwrap r true = Returns v -> P v) /\
  (forall errs, unwrap r false = Raises errs -> rec = false \/ (exists v, unwrap r true = Returns v) ->
     Forall (not_before toks (loc_from_stream toks) (List.length w)) errs).
Proof.
  intros F unescape int_of float_of n toks w rest P rec mi r Hs Hb H.
  assert (Gv : gok (exactpos toks (loc_from_stream toks)) (jvalue (F := F))) by (apply (fok unescape int_of float_of), fits_value).
  destruct (proj1 (parts unescape int_of float_of toks) w P Hb 0 rest) as [K _]; [lia|exact Hs|].
  refine (keeps_parse _ _ _ _ _ _ _ _ _ _ (loc_from_stream toks) _ _ _ _ (json_wf_E _ _ _) _ (lexer_cohere _) (lay_eof _ _ _ _ _ (json_lay _ _ _ _)) _ H).
  - split; [exact I|split; [exact (json_wf (F := F))|split; exact I]].
  - apply (keeps_l _ toks lexer_get_loc _ _ (lexer_cohere _) (fun x => x) (HG unescape int_of float_of toks)); auto; try lia; try solve_gall.
Qed.
Print Assumptions C76_json.

(** [[1, {"a": 2 ]]: the curly bracket is missing *)
Example C76_json_case :
  let N x := Token "integer" (ascii_chars x) loc0 loc0 in
  let a := Token "string" (ascii_chars """a""") loc0 loc0 in
  let w := [ptok "["; N "1"%string; ptok ","; ptok "{"; a; ptok ":"; N "2"%string] in
  let id := fun x : list char => x in
  let int_of := fun x : list char => (Z.of_N (hd 0%N x) - 48)%Z in
  begins id int_of id w (fun u => exists l, u = JList l /\ exists x l', l = [JInt 1] ++ x :: l' /\
    exists kvs d, x = JDict d /\ is_dict kvs d /\ exists kv l', kvs = kv :: l' /\ fst kv = tk_value a /\ snd kv = JInt 2) /\
  exists r e, lexer_parse (json_E id int_of id) 60 json_parser (w ++ [ptok "]"]) true = Ret r /\
    unwrap r false = Raises [e] /\ ei_op e = Some (Insert "'}'") /\
    unwrap r true = Returns (JList [JInt 1; JDict [(tk_value a, JInt 2)]]).
Proof.
  cbv zeta. split.
  - apply (bg_list _ _ _ (ptok "[")); [split; reflexivity|].
    apply (lb_next _ _ _ [Token "integer" (ascii_chars "1") loc0 loc0] [JInt 1] (ptok ",")); [|split; reflexivity|].
    + apply el_one, json_scalar. apply (is_int (fun x => x) (fun x => Z.of_N (hd 0%N x) - 48)%Z). reflexivity.
    + apply bg_dict; [split; reflexivity|]. apply db_first.
      apply (mb_value (F := list char) (fun x => x) (fun x => Z.of_N (hd 0%N x) - 48)%Z (fun x => x) _ _ _ (fun u => u = JInt 2)); [reflexivity|split; reflexivity|]. apply bg_value, json_scalar.
      apply (is_int (fun x => x) (fun x => Z.of_N (hd 0%N x) - 48)%Z (fun x => x) (Token "integer" (ascii_chars "2") loc0 loc0)). reflexivity.
  - do 2 eexists. split; [vm_compute; reflexivity|]. repeat (split; [vm_compute; reflexivity|]). vm_compute. reflexivity.
Qed.
