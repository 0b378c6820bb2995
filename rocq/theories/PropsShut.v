(** C53 and C84 without prefix-freeness: it is enough that repeated parts end with a token
    that must be there.  The JSON parser of the test-suite. *)
From Verif Require Import ReplaySpec Shut PropsReplay PropsReplayJson PropsExp Json JsonSpec JsonProofs JsonLL JsonPatch PropsMissJson PropsJson Lexer LL LangInv DiagProofs.

Theorem C53_closed_items :
  forall T V (E : env T V) n A (g : gram T V A) s mi get fmt locof r b errs Sh,
  wf_env E -> wf g -> cohere get s locof -> lay_ok E g s locof ->
  everywhere E (completable_node E) g -> LL1 E g -> everywhere E (quiet_node E) g -> guarded E g ->
  everywhere E one_token_node g -> everywhere E (fun B q => ~ is_layout B q) g ->
  everywhere E (labelled_node E) g -> ~ anonymous A g -> everywhere E no_bind_node g ->
  everywhere E (shut_items E Sh) g -> (forall d, Sh d -> shut E Sh (E d)) ->
  parse E n (seql g GEof) s false mi get fmt = Ret r -> unwrap r b = Raises errs ->
  exists p e, errs = [e] /\ ei_loc e = locof p /\ p <= List.length s /\
    (forall t, viable E g (firstn p s ++ [t]) -> mentions E g (ei_expected e) t) /\
    (everywhere E (fun B q => ~ is_eof B q) g -> forall v, sentence E g (firstn p s) v ->
       In "end of file"%string (ei_expected e)).
Proof.
  intros T V E n A g s mi get fmt locof r b errs Sh HE Hg Hco Hl Hc HL Hq Hgd H1 Hnl Hlab Han Hb Hs HS H Hu.
  refine (C53_expected_complete T V E n A g s mi get fmt locof r b errs HE Hg Hco Hl Hc HL H1 Hnl Hlab Han _ H Hu).
  apply (shut_clear_end E Sh HE HS A g Hg Hc Hq Hgd HL); auto. intros B q Ho. specialize (H1 B q Ho). destruct q; try exact I; destruct H1.
Qed.
Print Assumptions C53_closed_items.
Lemma one_by_one_incl T V (E : env T V) A (g : gram T V A) put s locof v es : forall i w errs,
  one_by_one E g put eq s locof v i w es errs -> one_by_one E g put (@incl string) s locof v i w es errs.
Proof.
  induction es as [|[t|ts|lb x] es IH]; intros i w errs K; cbn [one_by_one] in *.
  - exact K.
  - destruct K as [K1 K2]. split; auto.
  - destruct K as (e & errs' & K1 & K2 & K3 & K4 & K5 & K6). exists e, errs'. do 3 (split; [auto|]). split; [|split; auto].
    intros b mi get fmt locof' Hco. destruct (K4 b mi get fmt locof' Hco) as (n & r & e' & Q1 & Q2 & Q3 & Q4 & Q5).
    exists n, r, e'. do 4 (split; [auto|]). rewrite Q5. apply incl_refl.
  - destruct K as (u & e & errs' & K0 & K1 & K2 & K3 & K4 & K5). exists u, e, errs'. do 4 (split; [auto|]). split; [|auto].
    intros b mi get fmt locof' Hco. destruct (K4 b mi get fmt locof' Hco) as (n & r & e' & Q1 & Q2 & Q3 & Q4 & Q5).
    exists n, r, e'. do 4 (split; [auto|]). rewrite Q5. apply incl_refl.
Qed.
Lemma each_error_mono {T} (put : string -> list (T + string) -> list T -> Prop) (P Q : list T -> erroritem -> Prop) :
  (forall w e, P w e -> Q w e) -> forall es w errs, each_error put P w es errs -> each_error put Q w es errs.
Proof.
  intros HPQ. induction es as [|[t|ts|lb x] es IH]; intros w errs K; cbn [each_error] in *; auto.
  - destruct K as (e & errs' & K1 & K2 & K3). exists e, errs'. auto.
  - destruct K as (u & e & errs' & K1 & K2 & K3 & K4). exists u, e, errs'. auto.
Qed.
Theorem C84_closed_items_complete :
  forall T V (E : env T V) n A (g : gram T V A) s mi get fmt locof r errs v fill Sh,
  wf_env E -> wf g -> no_layout g -> (forall d, no_layout (E d)) -> cohere get s locof ->
  everywhere E (completable_node E) g -> LL1 E g -> everywhere E (quiet_node E) g -> guarded E g ->
  attempt_free E g -> single_withs E g -> everywhere E (placeholder_node E fill) g ->
  everywhere E eof_free_node g -> everywhere E forward_node g ->
  everywhere E one_token_node g -> everywhere E (labelled_node E) g -> ~ anonymous A g -> everywhere E no_bind_node g ->
  everywhere E (shut_items E Sh) g -> (forall d, Sh d -> shut E Sh (E d)) ->
  parse E n (seql g GEof) s true mi get fmt = Ret r ->
  unwrap r false = Raises errs -> unwrap r true = Returns v ->
  exists es, edits_in es = s /\
    one_by_one E g (filling E g fill) eq s locof v 0 [] es errs /\
    each_error (filling E g fill) (fun w e =>
      (forall t, viable E g (w ++ [t]) -> mentions E g (ei_expected e) t) /\
      (forall v, sentence E g w v -> In "end of file"%string (ei_expected e))) [] es errs.
Proof.
  intros T V E n A g s mi get fmt locof r errs v fill Sh HE Hg Hn HN Hco Hc HL Hq Hgd Ha Hsw Hp He Hf H1 Hlab Han Hb Hs HS H Hu Hv.
  destruct (C84_placeholders_exactly T V E n A g s mi get fmt locof r errs v fill Sh HE Hg Hn HN Hco Hc HL Hq Hgd Ha Hsw Hp He Hf Hs HS H Hu Hv) as (es & K1 & K2).
  exists es. split; [auto|]. split; [auto|].
  assert (Hce : everywhere E (clear_end_node E) g).
  { apply (shut_clear_end E Sh HE HS A g Hg Hc Hq Hgd HL); auto. intros B q Ho. specialize (H1 B q Ho). destruct q; try exact I; destruct H1. }
  eapply replay_complete; eauto. eapply one_by_one_incl; eauto.
Qed.
Print Assumptions C84_closed_items_complete.

(** ** JSON *)
(** one of the names [X] says that the token [t] may come *)
Definition json_named (X : list string) (t : token) : Prop :=
  (In "value"%string X /\ starts_value t) \/
  (In "object"%string X /\ is_punct "{" t) \/ (In "list"%string X /\ is_punct "[" t) \/
  (exists k, In k X /\ In k ["integer"; "float"; "bool"; "null"; "string"]%string /\ is_kind k t) \/
  (exists a, In ("'" ++ String a "" ++ "'")%string X /\ is_punct a t).
Section J.
Context {F : Type}.
Variable unescape : list char -> list char.
Variable int_of : list char -> Z.
Variable float_of : list char -> F.
Notation E := (json_E unescape int_of float_of).
Notation value := (jvalue (F := F)).
Definition names_ok B (q : gram token json_V B) : Prop :=
  forall X l t, In l X -> called B q l -> first E q t -> json_named X t.
Lemma json_names_ok : everywhere E names_ok value.
Proof.
  apply everywhere_gall; [intros d|]; solve_gall; intros X l t Hl Hc (w & v & Hf); cbn [called] in Hc; try contradiction; subst l.
  all: lazymatch type of Hf with
    | sentence _ (GLabel _ "value") _ _ =>
        left; assert (Q : sentence E value (t :: w) v) by exact (la_delay E 0 (map inl (t :: w)) v Hf);
        destruct (value_start unescape int_of float_of _ _ Q) as (t' & w' & Q1 & Q2); injection Q1 as <- _; auto
    | sentence _ (GLabel _ "object") _ _ =>
        right; left; destruct (dict_start unescape int_of float_of _ _ Hf) as (t' & w' & Q1 & Q2); injection Q1 as <- _; auto
    | sentence _ (GLabel _ "list") _ _ =>
        right; right; left; destruct (list_start unescape int_of float_of _ _ Hf) as (t' & w' & Q1 & Q2); injection Q1 as <- _; auto
    | sentence _ (GLabel _ ?k) _ _ =>
        right; right; right; left; exists k; split; [auto|split; [cbn; tauto|]];
        destruct (token_sent unescape int_of float_of k _ _ Hf) as [Q1 Q2]; injection Q1 as -> _; exact Q2
    | sentence _ (GSym _ (Token _ (ascii_chars (String ?a _)) _ _) _) _ _ =>
        right; right; right; right; exists a; split; [auto|];
        destruct (punct_sent unescape int_of float_of a _ _ Hf) as [Q1 Q2]; injection Q1 as -> _; exact Q2
    | _ => idtac
    end.
Qed.
Lemma json_labelled : everywhere E (labelled_node E) value.
Proof. apply everywhere_gall; [intros d|]; solve_gall. Qed.
Lemma json_no_bind : everywhere E no_bind_node value.
Proof. apply everywhere_gall; [intros d|]; solve_gall. Qed.
Notation is_json := (is_json unescape int_of float_of).
Lemma json_viable w X : (forall t, viable E value (w ++ [t]) -> mentions E value X t) ->
  forall t rest v, is_json (w ++ t :: rest) v -> json_named X t.
Proof.
  intros H t rest v Hj. destruct (H t) as (l & B & q & Hl & Ho & Hc & Hf).
  - exists rest, v. rewrite <- app_assoc. apply json_sentence. exact Hj.
  - exact (json_names_ok B q Ho X l t Hl Hc Hf).
Qed.
(** The error [loads] raises for a token sequence names everything that could stand at its
    place: every token with which the text before it can go on, and the end of the text if
    it is complete. *)
Theorem C53_json : forall toks n r b errs,
  lexer_parse E n (json_parser (F := F)) toks false = Ret r -> unwrap r b = Raises errs ->
  exists p e, errs = [e] /\ ei_loc e = loc_from_stream toks p /\ p <= List.length toks /\
    (forall t rest v, is_json (firstn p toks ++ t :: rest) v -> json_named (ei_expected e) t) /\
    (forall v, is_json (firstn p toks) v -> In "end of file"%string (ei_expected e)).
Proof.
  intros toks n r b errs H Hu. destruct (json_shut unescape int_of float_of) as [Z1 Z2].
  destruct (C53_closed_items _ _ E n _ value toks 5%Z _ _ (loc_from_stream toks) r b errs (fun _ => True) (json_wf_E _ _ _) json_wf
    (lexer_cohere toks) (json_lay _ _ _ _) (json_completable _ _ _) (json_LL1 _ _ _) (json_quiet _ _ _) (json_guarded _ _ _)
    (json_one_token _ _ _) (json_layout_free _ _ _) json_labelled (fun K => K) json_no_bind Z1 (fun d _ => Z2 d) H Hu)
    as (p & e & K1 & K2 & K3 & K4 & K5).
  exists p, e. do 3 (split; [auto|]). split; [apply json_viable; exact K4|].
  intros v Hj. refine (K5 _ v _); [apply everywhere_gall; [intros d|]; solve_gall|]. apply json_sentence. exact Hj.
Qed.
Print Assumptions C53_json.
(** ... and so do all the errors reported with recovery, for the text as mended so far. *)
Theorem C84_json_complete : forall fill i a toks n r errs v,
  fill "1"%string = [i] -> fill "'""a""'"%string = [a] ->
  is_kind "integer" i -> int_of (tk_value i) = 1%Z ->
  is_kind "string" a -> unescape (tk_value a) = ascii_chars "a" ->
  lexer_parse E n (json_parser (F := F)) toks true = Ret r ->
  unwrap r false = Raises errs -> unwrap r true = Returns v ->
  exists es, edits_in es = toks /\
    one_by_one E value (filling E value fill) eq toks (loc_from_stream toks) v 0 [] es errs /\
    each_error (filling E value fill) (fun w e =>
      (forall t rest v, is_json (w ++ t :: rest) v -> json_named (ei_expected e) t) /\
      (forall v, is_json w v -> In "end of file"%string (ei_expected e))) [] es errs.
Proof.
  intros fill i a toks n r errs v F1 F2 H1 H2 H3 H4 H Hu Hv. destruct (json_shut unescape int_of float_of) as [Z1 Z2].
  destruct (C84_closed_items_complete _ _ E n _ value toks 5%Z _ _ (loc_from_stream toks) r errs v fill (fun _ => True) (json_wf_E _ _ _) json_wf
    json_no_layout (json_no_layout_E _ _ _) (lexer_cohere toks) (json_completable _ _ _) (json_LL1 _ _ _) (json_quiet _ _ _) (json_guarded _ _ _)
    (json_attempt_free _ _ _) (json_single_withs _ _ _) (json_placeholders unescape int_of float_of fill i a F1 F2 H1 H2 H3 H4)
    (json_eof_free _ _ _) (json_forward _ _ _) (json_one_token _ _ _) json_labelled (fun K => K) json_no_bind Z1 (fun d _ => Z2 d) H Hu Hv)
    as (es & K1 & K2 & K3).
  exists es. split; [auto|]. split; [auto|]. eapply each_error_mono; [|exact K3].
  intros w e [Q1 Q2]. split; [apply json_viable; exact Q1|]. intros u Hj. apply (Q2 u). apply json_sentence. exact Hj.
Qed.
Print Assumptions C84_json_complete.
End J.

(** [[{"b": , : null}}]]: the error is at the comma; the text before it can go on with any
    value, and the error says so. *)
Example C53_case_json : exists r e,
  lexer_parse ex_mJ 80 json_parser ex_toks false = Ret r /\ unwrap r false = Raises [e] /\
  ei_loc e = Loc 4 0 4 /\ ei_expected e = ["value"%string] /\
  (forall t rest v, is_json (fun x => x) (fun x => Z.of_nat (List.length x)) (fun x : list char => x) (firstn 4 ex_toks ++ t :: rest) v ->
     json_named (ei_expected e) t) /\
  exists t rest v, is_json (fun x => x) (fun x => Z.of_nat (List.length x)) (fun x : list char => x) (firstn 4 ex_toks ++ t :: rest) v.
Proof.
  destruct (lexer_parse ex_mJ 80 json_parser ex_toks false) as [r| |] eqn:H; [|vm_compute in H; discriminate H|vm_compute in H; discriminate H].
  destruct (unwrap r false) as [v0|errs] eqn:Hu; [exfalso|].
  { revert H Hu. intros H. vm_compute in H. injection H as <-. intros Hu. vm_compute in Hu. discriminate Hu. }
  destruct (C53_json (fun x => x) (fun x => Z.of_nat (List.length x)) (fun x : list char => x) ex_toks 80 r false errs H Hu)
    as (p & e & -> & K1 & K2 & K3 & _).
  assert (Q : ei_loc e = Loc 4 0 4 /\ ei_expected e = ["value"%string]).
  { revert Hu. clear -H. vm_compute in H. injection H as <-. vm_compute. intros [= <-]. split; reflexivity. }
  destruct Q as [Q1 Q2].
  assert (p = 4) as ->.
  { rewrite Q1 in K1. change (List.length ex_toks) with 10 in K2.
    do 11 (destruct p as [|p]; [first [reflexivity|discriminate K1]|]). lia. }
  exists r, e. repeat (split; [assumption || reflexivity|]).
  exists (mtok "null" "null" 0), [mtok "punct" "}" 1; mtok "punct" "]" 2], (JList [JDict [(ascii_chars "b", JNull)]]).

  apply (C61_texts _ _ _ (firstn 4 ex_toks ++ mtok "null" "null" 0 :: [mtok "punct" "}" 1; mtok "punct" "]" 2]) false). exists 60. eexists. split; vm_compute; reflexivity.
Qed.
