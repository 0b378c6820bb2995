(** Property C79 for the JSON parser of the test-suite: closing brackets missing
    at the end, over tokens and over texts. *)
From Verif Require Import Fuel ApiSpec ApiProofs Locations Json JsonSpec JsonProofs JsonText JsonTextSpec JsonTextProofs JsonTextMain JsonLL PropsJson
  PropsJsonText JsonScan JsonScanProofs PropsScan PropsScanPos LL LangInv PropsTotal FirstSpec PropsFirst PropsLL Examples
  Mend PropsMend PropsBudget Miss PropsMiss PropsMissJson PropsMissText PropsGapJson Close PropsClose.
From Coq Require Import Lia.
Import ListNotations.

Definition closing_bracket (b : ascii) : Prop := b = "]"%char \/ b = "}"%char.

Section P.
Context {F : Type}.
Variable unescape : list char -> list char.
Variable int_of : list char -> Z.
Variable float_of : list char -> F.
Notation E := (json_E unescape int_of float_of).
Notation is_json := (is_json unescape int_of float_of).
Notation value := (jvalue (F := F)).
Notation member := (jmember unescape (F := F)).
Notation top := (json_parser (F := F)).
Notation sym := (token + string)%type.

(** ** The brackets that are open *)
Fixpoint run (st : list ascii) (w : list sym) : option (list ascii) :=
  match w with
  | [] => Some st
  | inl t :: w =>
      if punctb "[" t then run ("]"%char :: st) w
      else if punctb "{" t then run ("}"%char :: st) w
      else if punctb "]" t then match st with b :: st => if Ascii.eqb b "]" then run st w else None | [] => None end
      else if punctb "}" t then match st with b :: st => if Ascii.eqb b "}" then run st w else None | [] => None end
      else run st w
  | inr _ :: w => run st w
  end.
Lemma run_app a b : forall st, run st (a ++ b) = match run st a with Some st' => run st' b | None => None end.
Proof.
  induction a as [|[t|l] a IH]; intros st; cbn [run app]; auto.
  destruct (punctb "[" t), (punctb "{" t), (punctb "]" t), (punctb "}" t); auto;
    destruct st as [|c st]; auto; try destruct (Ascii.eqb c "]"); try destruct (Ascii.eqb c "}"); auto.
Qed.
Definition inv (w : list sym) : Prop := forall st, run st w = Some st.
Lemma inv_nil : inv [].
Proof. intros st. reflexivity. Qed.
Lemma inv_app a b : inv a -> inv b -> inv (a ++ b).
Proof. intros H1 H2 st. rewrite run_app, H1. apply H2. Qed.
Lemma inv_inr l : inv [inr l].
Proof. intros st. reflexivity. Qed.
Lemma inv_kind k t : is_kind k t -> k <> "punct"%string -> inv [inl t].
Proof. intros H N st. cbn [run]. rewrite !(punctb_not k _ t H N). reflexivity. Qed.
Lemma inv_joins t : joins t -> inv [inl t].
Proof. intros [H|H] st; cbn [run]; rewrite !(punctb_at _ _ t H); reflexivity. Qed.
Lemma inv_between a b t w t' : bracket a b -> is_punct a t -> is_punct b t' -> inv w -> inv (inl t :: w ++ [inl t']).
Proof.
  intros B P P' H st. cbn [run]. rewrite !(punctb_at _ _ t P).
  destruct B as [[-> ->]|[-> ->]]; cbn [Ascii.eqb Bool.eqb]; rewrite run_app, H; cbn [run]; rewrite !(punctb_at _ _ t' P'); reflexivity.
Qed.
Lemma inv_items A (p : gram token json_V A) n : (forall w v, lang E A p w v -> List.length w < n -> inv w) ->
  forall k w l, List.length w < k -> List.length w <= n -> lang E _ (GMany (seqr (punct ",") p)) w l -> inv w.
Proof.
  intros Hp. induction k as [|k IH]; intros w l Hk Hn H; [lia|].
  apply lang_inv in H as [[-> _]|(w1 & w2 & v1 & l' & -> & _ & K1 & K2)]; [apply inv_nil|].
  apply lang_inv in K1 as (u1 & u2 & x1 & x2 & -> & _ & K3 & K4). apply (punct_word unescape int_of float_of) in K3 as [-> K3]. cbn [app List.length] in *.
  rewrite !app_length in *. apply (inv_app [inl x1] (u2 ++ w2)); [apply inv_joins; left; exact K3|].
  apply inv_app; [apply (Hp _ _ K4); lia|]. apply (IH w2 l'); auto; lia.
Qed.
Lemma inv_sep A (p : gram token json_V A) n : (forall w v, lang E A p w v -> List.length w < n -> inv w) ->
  forall w l, List.length w < n -> lang E _ (sep_by p (punct ",")) w l -> inv w.
Proof.
  intros Hp w l Hn H. apply lang_inv in H as (o & H & _). apply lang_inv in H as [[-> _]|(x & _ & H)]; [apply inv_nil|].
  apply lang_inv in H as (w1 & w2 & v1 & l' & -> & _ & K1 & K2). rewrite app_length in Hn.
  apply inv_app; [apply (Hp _ _ K1); lia|]. apply (inv_items A p n Hp (S (List.length w2)) w2 l'); auto; lia.
Qed.
Lemma value_inv : forall n w v, List.length w < n -> lang E _ value w v -> inv w.
Proof.
  induction n as [|n IH]; intros w v Hn H; [lia|].
  assert (IHv : forall (w : list sym) v, lang E _ value w v -> List.length w < n -> inv w) by (intros; eapply IH; eauto).
  do 2 apply lang_inv in H. apply lang_inv in H as [H|H]; [apply lang_inv in H as [H|H]|].
  - apply lang_inv in H as [H|[-> _]]; [|apply inv_inr].
    apply (scalar_word unescape int_of float_of) in H as (t & k & -> & K & N). eapply inv_kind; eauto.
  - do 2 apply lang_inv in H. apply lang_inv in H as (w1 & w2 & v1 & v2 & -> & _ & K1 & K2). apply (punct_word unescape int_of float_of) in K1 as [-> K1].
    apply lang_inv in K2 as (w3 & w4 & v3 & v4 & -> & _ & K2 & K3). apply (punct_word unescape int_of float_of) in K3 as [-> K3]. cbn [app List.length] in *.
    rewrite app_length in Hn. cbn in Hn.
    apply (inv_between "{" "}"); auto; [right; auto|]. apply lang_inv in K2 as (y & K2 & _). refine (inv_sep _ _ n _ w3 y ltac:(lia) K2).
    intros u x Hx Hu. apply lang_inv in Hx as (u1 & u2 & x1 & x2 & -> & _ & H1 & H2).
    apply lang_inv in H1 as (u3 & u4 & x3 & x4 & -> & _ & H3 & H4). apply (punct_word unescape int_of float_of) in H4 as [-> H4].
    rewrite !app_length in Hu. cbn in Hu.
    apply inv_app; [apply inv_app|eapply IHv; eauto; lia].
    + apply lang_inv in H3 as [H3|[-> _]]; [|apply inv_inr]. apply (tok_word unescape int_of float_of) in H3 as (t & -> & K). eapply inv_kind; eauto. discriminate.
    + apply inv_joins. right. exact H4.
  - do 2 apply lang_inv in H. apply lang_inv in H as (w1 & w2 & v1 & v2 & -> & _ & K1 & K2). apply (punct_word unescape int_of float_of) in K1 as [-> K1].
    apply lang_inv in K2 as (w3 & w4 & v3 & v4 & -> & _ & K2 & K3). apply (punct_word unescape int_of float_of) in K3 as [-> K3]. cbn [app List.length] in *.
    rewrite app_length in Hn. cbn in Hn.
    apply (inv_between "[" "]"); auto; [left; auto|]. apply lang_inv in K2 as (y & K2 & _). refine (inv_sep _ _ n _ w3 y ltac:(lia) K2).
    intros u x Hx Hu. eapply IHv; eauto.
Qed.
Lemma run_value w v : lang E _ value w v -> run [] w = Some [].
Proof. intros H. apply (value_inv (S (List.length w)) w v); auto. Qed.

(** the stack is what must be inserted *)
Lemma run_closers bs : Forall closing_bracket bs -> forall st, run st (map inl (map ptok bs)) = Some [] -> st = bs.
Proof.
  induction 1 as [|b bs Hb _ IH]; intros st H; [injection H as ->; reflexivity|].
  cbn [map run] in H. rewrite !(punctb_at b _ _ (ptok_self b)) in H.
  destruct Hb as [-> | ->]; cbn [Ascii.eqb Bool.eqb] in H; destruct st as [|c st]; try discriminate.
  - destruct (Ascii.eqb_spec c "]") as [->|]; [|discriminate]. f_equal. auto.
  - destruct (Ascii.eqb_spec c "}") as [->|]; [|discriminate]. f_equal. auto.
Qed.
Lemma run_shrink w : forall st, run st w = Some [] -> List.length st <= List.length w.
Proof.
  induction w as [|[t|l] w IH]; intros st H; cbn [run] in H.
  - injection H as ->. auto.
  - repeat match type of H with (if ?b then _ else _) = _ => destruct b end; cbn [List.length];
      try (apply IH in H; cbn [List.length] in H; lia);
      destruct st as [|c st]; try discriminate H; cbn [List.length]; match type of H with (if ?b then _ else _) = _ => destruct b end; try discriminate;
      apply IH in H; lia.
  - apply IH in H. cbn. lia.
Qed.
Definition one_insertion (x : sym) : Prop := (exists b, x = inl (ptok b)) \/ exists l, x = inr l.
Lemma run_exact w : Forall one_insertion w -> forall st, run st w = Some [] -> List.length w <= List.length st ->
  w = map inl (map ptok st).
Proof.
  induction 1 as [|x w Hx _ IH]; intros st H L; cbn [List.length] in L.
  - destruct st; [reflexivity|discriminate].
  - destruct Hx as [[b ->]|[l ->]]; cbn [run] in H.
    + rewrite !(punctb_at b _ _ (ptok_self b)) in H.
      destruct (Ascii.eqb b "["); [apply run_shrink in H; cbn [List.length] in H; lia|].
      destruct (Ascii.eqb b "{"); [apply run_shrink in H; cbn [List.length] in H; lia|].
      destruct (Ascii.eqb_spec b "]") as [->|]; [|destruct (Ascii.eqb_spec b "}") as [->|]].
      * destruct st as [|c st]; [discriminate|]. destruct (Ascii.eqb_spec c "]") as [->|]; [|discriminate]. cbn [map]. f_equal. apply IH; auto. cbn in L. lia.
      * destruct st as [|c st]; [discriminate|]. destruct (Ascii.eqb_spec c "}") as [->|]; [|discriminate]. cbn [map]. f_equal. apply IH; auto. cbn in L. lia.
      * apply run_shrink in H. lia.
    + apply run_shrink in H. lia.
Qed.
Lemma inserted_syms ins : Forall (fun w => exists l, inserts E value l w) ins -> Forall one_insertion (List.concat ins) /\ List.length (List.concat ins) = List.length ins.
Proof.
  induction 1 as [|w ins (l & H) _ [IH1 IH2]]; cbn; [auto|].
  apply json_inserts in H as [(b & -> & _)|(x & ->)]; cbn; (split; [constructor; [|exact IH1]|lia]); [left|right]; eauto.
Qed.
Lemma json_completions toks bs v ins u : Forall closing_bracket bs -> is_json (toks ++ map ptok bs) v ->
  Forall (fun w => exists l, inserts E value l w) ins -> lang E _ value (map inl toks ++ List.concat ins) u ->
  List.length bs <= List.length ins /\ (List.length ins <= List.length bs -> List.concat ins = map inl (map ptok bs)).
Proof.
  intros Hb Hv Hi Hu. destruct (inserted_syms _ Hi) as [S1 S2]. apply (json_sentence unescape int_of float_of) in Hv. unfold sentence in Hv. rewrite map_app in Hv.
  apply run_value in Hv, Hu. rewrite run_app in Hv, Hu. destruct (run [] (map inl toks)) as [st|]; [|discriminate].
  apply (run_closers bs Hb) in Hv as ->. split.
  - apply run_shrink in Hu. lia.
  - intros L. apply run_exact; auto. lia.
Qed.

(** ** The brackets *)
Lemma json_to_end : everywhere E (to_end_node E) value.
Proof. apply everywhere_gall; [intros d|]; solve_gall. Qed.
Lemma json_re x : everywhere E (fun B q => match q with GRegexp re => forall w v, lang E _ (GRegexp re) (map inl w) v -> ~ In x w | _ => True end) value.
Proof. apply everywhere_gall; [intros d|]; solve_gall. Qed.
Lemma json_closing b : closing_bracket b -> CloseSpec.closing E value (ptok b).
Proof.
  intros Hb B q Ho. split; [apply (json_apart unescape int_of float_of b (ptok b)); auto; [unfold joiner; destruct Hb; auto|apply ptok_self]|].
  split; [exact (json_insertable unescape int_of float_of b B q Ho)|]. exact (json_re (ptok b) B q Ho).
Qed.

(** ** Missing closing brackets are inserted, each reported at the end of the
    text; the result is the value of the completed text *)
Theorem C79_json : forall toks bs v mi n r,
  distinct_locs toks (loc_from_stream toks) ->
  is_json (toks ++ map ptok bs) v -> Forall closing_bracket bs -> bs <> [] -> (mi < 0 \/ Z.of_nat (List.length bs) <= mi)%Z ->
  parse E n top toks true mi lexer_get_loc linecol_fmt = Ret r ->
  exists errs, unwrap r false = Raises errs /\ unwrap r true = Returns v /\
    Forall2 (fun e b => ei_loc e = loc_from_stream toks (List.length toks) /\ ei_op e = Some (Insert (String "'" (String b "'")))) errs bs.
Proof.
  intros toks bs v mi n r Hd Hv Hb Hne Hm H.
  destruct (C79_completed token json_V E n _ value toks (map ptok bs) v mi lexer_get_loc linecol_fmt (loc_from_stream toks) r
    (json_wf_E _ _ _) (json_wf (F := F)) (lexer_cohere _) (json_lay _ _ _ _) Hd (json_completable _ _ _) (json_LL1 _ _ _) (json_quiet _ _ _)
    (json_guarded _ _ _) json_to_end (one_next _ _ _ _ _ (json_one_token _ _ _)) (json_layout_free _ _ _) (json_single_withs _ _ _))
    as (errs & U1 & U2 & F2); auto.
  - destruct bs; [congruence|discriminate].
  - clear - Hb. induction Hb; constructor; auto using json_closing.
  - apply json_sentence. exact Hv.
  - unfold enough. rewrite map_length. exact Hm.
  - intros ins u Hi Hle Hu. rewrite map_length in Hle. apply (json_completions _ _ _ _ _ Hb Hv Hi Hu). exact Hle.
  - exists errs. split; auto. split; auto. clear - F2.
    remember (map ptok bs) as xs eqn:Q. revert bs Q. induction F2 as [|e x es xs (L & l & O & I) _ IH]; intros [|b bs] Q; try discriminate; constructor.
    + split; auto. rewrite O. injection Q as -> _. destruct (json_inserts _ _ _ _ _ I) as [(c & Q & ->)|(y & Q)]; [|discriminate].
      injection Q as Q. rewrite <- (ascii_N_embedding b), Q, ascii_N_embedding. reflexivity.
    + injection Q as _ Q. auto.
Qed.
(** ... unless more are missing than may be inserted *)
Theorem C79_json_too_deep : forall toks bs v mi n r,
  distinct_locs toks (loc_from_stream toks) ->
  is_json (toks ++ map ptok bs) v -> Forall closing_bracket bs -> (0 <= mi < Z.of_nat (List.length bs))%Z ->
  parse E n top toks true mi lexer_get_loc linecol_fmt = Ret r ->
  exists e, unwrap r false = Raises [e] /\ unwrap r true = Raises [e] /\
    ei_loc e = loc_from_stream toks (List.length toks) /\ ei_op e = None.
Proof.
  intros toks bs v mi n r Hd Hv Hb Hm H.
  apply (C79_too_many token json_V E n _ value toks mi lexer_get_loc linecol_fmt (loc_from_stream toks) r
    (json_wf_E _ _ _) (json_wf (F := F)) (lexer_cohere _) (json_lay _ _ _ _) Hd (json_completable _ _ _) (json_LL1 _ _ _)
    (one_next _ _ _ _ _ (json_one_token _ _ _)) (json_layout_free _ _ _) (json_single_withs _ _ _)); auto; [|lia|].
  - exists (map ptok bs), v. apply json_sentence. exact Hv.
  - intros ins u Hi Hu. pose proof (proj1 (json_completions _ _ _ _ _ Hb Hv Hi Hu)). lia.
Qed.
End P.
Print Assumptions C79_json.
Print Assumptions C79_json_too_deep.

(** ** Texts *)
Lemma written_snocs bs : Forall closing_bracket bs -> forall src toks0, written (src ++ map N_of_ascii bs) toks0 ->
  exists toks1 ts, toks0 = toks1 ++ ts /\ written src toks1 /\ Forall2 is_punct bs ts.
Proof.
  induction bs as [|b bs IH] using rev_ind; intros Hb src toks0 W.
  - cbn in W. rewrite app_nil_r in W. exists toks0, []. rewrite app_nil_r. auto.
  - apply Forall_app in Hb as [Hb Hl]. inversion Hl as [|? ? Hc _]. subst.
    rewrite map_app, app_assoc in W. cbn [map] in W.
    assert (C : closer (N_of_ascii b)) by (destruct Hc as [-> | ->]; [left|right]; reflexivity).
    destruct (written_snoc _ _ W _ _ eq_refl C) as (toks1 & t & -> & W1 & P).
    destruct (IH Hb _ _ W1) as (toks2 & ts & -> & W2 & P2).
    exists toks2, (ts ++ [t]). rewrite app_assoc. split; auto. split; auto. apply Forall2_app; auto. constructor; auto.
    destruct Hc as [-> | ->]; destruct P as [[Q P]|[Q P]]; try exact P; discriminate.
Qed.

Section T.
Context {F : Type}.
Variable float_of : list char -> F.
Notation E := (json_E json_unescape json_int float_of).
Notation top := (json_parser (F := F)).

Lemma unfinished src bs m v k toks : Forall closing_bracket bs ->
  loads float_of m (src ++ map N_of_ascii bs) = Ret (Loads (Returns v)) -> split_tokens k src json_spec = Ret (LexOk toks) ->
  distinct_locs toks (loc_from_stream toks) /\ is_json json_unescape json_int float_of (toks ++ map ptok bs) v /\
  exists q, loc_from_stream toks (List.length toks) = true_loc src q /\ q <= List.length src /\ Forall white (skipn q src).
Proof.
  intros Hb Hv Sp.
  assert (exists toks0, written (src ++ map N_of_ascii bs) toks0 /\ is_json json_unescape json_int float_of toks0 v) as (toks0 & W & J)
    by (apply C62_text; eauto).
  destruct (written_snocs bs Hb _ _ W) as (toks1 & ts & -> & W1 & P).
  pose proof (proj1 (json_adj json_unescape json_int float_of) _ _ J) as Ad. apply adj_app in Ad as [Ad _].
  destruct (lex_written src src toks1 W1 true Ad 0 (Loc 0 0 0) [] eq_refl ltac:(lia)) as (k' & toks' & L & Sm). cbn [app] in L.
  destruct (lexes src) as (k0 & toks2 & S0 & HL). pose proof (split_det _ _ _ _ _ S0 Sp) as [= ->]. clear S0.
  assert (toks = toks') as <-. { pose proof (split_det src k' k _ _ L Sp) as [= Q]. auto. }
  split; [intros p q Hp Hq; exact (stream_inj src toks p q HL Hp Hq)|]. split.
  - apply (proj1 (JsonTextMain.json_same json_unescape json_int float_of) _ _ J). apply Forall2_app; auto.
    clear - P. induction P as [|b t bs ts [P1 P2] _ IH]; constructor; auto. split; auto.
  - destruct (reported src toks (List.length toks) HL ltac:(lia)) as (q & Hq & Lq & _ & K). destruct (K eq_refl) as [Wq _].
    exists q. rewrite Lq. auto.
Qed.
(** If a text is JSON once closing brackets are added at its end, then parsing
    it with recovery reports just that: one error for each of them, behind the
    last token, the brackets are inserted, and the value is the one of the
    completed text. *)
Theorem C79_json_text : forall src bs m v n k toks mi r,
  Forall closing_bracket bs -> bs <> [] ->
  loads float_of m (src ++ map N_of_ascii bs) = Ret (Loads (Returns v)) ->
  split_tokens k src json_spec = Ret (LexOk toks) -> (mi < 0 \/ Z.of_nat (List.length bs) <= mi)%Z ->
  parse E n top toks true mi lexer_get_loc linecol_fmt = Ret r ->
  exists errs q, unwrap r false = Raises errs /\ unwrap r true = Returns v /\ q <= List.length src /\ Forall white (skipn q src) /\
    Forall2 (fun e b => ei_loc e = true_loc src q /\ ei_op e = Some (Insert (String "'" (String b "'")))) errs bs.
Proof.
  intros src bs m v n k toks mi r Hb Hne Hv Sp Hm H.
  destruct (unfinished _ _ _ _ _ _ Hb Hv Sp) as (Hd & J & q & Q & Lq & Wq).
  destruct (C79_json json_unescape json_int float_of toks bs v mi n r Hd J Hb Hne Hm H) as (errs & U1 & U2 & F2).
  exists errs, q. rewrite Q in F2. auto 10.
Qed.
Theorem C79_json_text_too_deep : forall src bs m v n k toks mi r,
  Forall closing_bracket bs ->
  loads float_of m (src ++ map N_of_ascii bs) = Ret (Loads (Returns v)) ->
  split_tokens k src json_spec = Ret (LexOk toks) -> (0 <= mi < Z.of_nat (List.length bs))%Z ->
  parse E n top toks true mi lexer_get_loc linecol_fmt = Ret r ->
  exists e q, unwrap r false = Raises [e] /\ unwrap r true = Raises [e] /\ ei_op e = None /\
    ei_loc e = true_loc src q /\ q <= List.length src /\ Forall white (skipn q src).
Proof.
  intros src bs m v n k toks mi r Hb Hv Sp Hm H.
  destruct (unfinished _ _ _ _ _ _ Hb Hv Sp) as (Hd & J & q & Q & Lq & Wq).
  destruct (C79_json_too_deep json_unescape json_int float_of toks bs v mi n r Hd J Hb Hm H) as (e & U1 & U2 & L & O).
  exists e, q. rewrite <- Q. auto 10.
Qed.
End T.
Print Assumptions C79_json_text.
Print Assumptions C79_json_text_too_deep.

(** [1, {"a": [2: three brackets are missing *)
Example C79_case_json :
  let src := ascii_chars "[1, {""a"": [2 " in
  let bs := ["]"; "}"; "]"]%char in
  (exists v, loads (fun x : list char => x) 80 (src ++ map N_of_ascii bs) = Ret (Loads (Returns v))) /\
  exists toks, split_tokens 60 src json_spec = Ret (LexOk toks) /\
    exists r, lexer_parse (json_E json_unescape json_int (fun x : list char => x)) 60 json_parser toks true = Ret r.
Proof.
  split; [eexists; vm_compute; reflexivity|]. eexists. split; [vm_compute; reflexivity|]. eexists. vm_compute. reflexivity.
Qed.
