(** Replacing match functions and callbacks by equal ones does not change a
    parser; the client parsers with pattern texts against those with functions. *)
From Verif Require Import RegexProofs RegexClients ClientsRe RegexEq.
From Verif Require Import Json JsonText JsonScan JsonLL PropsScan LawSpec Laws Congr CongrSpec PropsCongr Fuel PropsYamlish ReadmeLL ReadmeProofs
  JsonTextProofs JsonProofs PropsJson PropsJsonText PropsRecovery Examples PropsLL.
From Verif Require Readme Yamlish.
From Coq Require Import Lia.
From Verif Require Import Spec.

(** ** General *)
Section General.
Variable space digit : char -> bool.
Notation matches := (matches space digit).

Lemma re_match_some r k s pos e v : pos <= List.length s -> re_match space digit r k s pos = Some (e, v) ->
  pos <= e <= List.length s /\ matches r (firstn (e - pos) (skipn pos s)) /\
  (k = 0 -> v = Some (firstn (e - pos) (skipn pos s))).
Proof.
  intros Hp. unfold re_match. destruct (re_first space digit r (skipn pos s)) as [[t c]|] eqn:Q; [|discriminate].
  intros H. injection H as <- <-. apply first_sound in Q as (w & E & M).
  assert (L : List.length s - pos = List.length w + List.length t) by (rewrite <- skipn_length, E, app_length; reflexivity).
  assert (W : firstn (List.length s - List.length t - pos) (skipn pos s) = w).
  { rewrite E. replace (_ - _ - _) with (List.length w) by lia. rewrite firstn_app, Nat.sub_diag, firstn_all. cbn. apply app_nil_r. }
  rewrite W. split; [lia|]. split; [exact M|]. intros ->. cbn. rewrite E, taken_app. reflexivity.
Qed.
Lemma re_match_none r k s pos : pos <= List.length s ->
  re_match space digit r k s pos = None <->
  forall e, pos <= e <= List.length s -> ~ matches r (firstn (e - pos) (skipn pos s)).
Proof.
  intros Hp. unfold re_match. pose proof (first_none space digit r (skipn pos s)) as K. split.
  - destruct (re_first space digit r (skipn pos s)) as [[t c]|]; [discriminate|]. intros _ e He M.
    apply (proj1 K eq_refl (firstn (e - pos) (skipn pos s)) (skipn (e - pos) (skipn pos s))); [symmetry; apply firstn_skipn|exact M].
  - intros H. rewrite (proj2 K); [reflexivity|]. intros w t E M. apply (H (pos + List.length w)).
    + assert (List.length (skipn pos s) = List.length w + List.length t) by (rewrite E, app_length; reflexivity).
      rewrite skipn_length in *. lia.
    + replace (pos + List.length w - pos) with (List.length w) by lia. rewrite E, firstn_app, Nat.sub_diag, firstn_all. cbn.
      rewrite app_nil_r. exact M.
Qed.
Lemma re_wf r k : wf (V := fun _ => unit) (GRegexp (re_match space digit r k)).
Proof. split; [|exact I]. intros s pos e v Hp H. apply re_match_some in H; tauto. Qed.
Lemma wf_regexp V pat k : wf (V := V) (regexp space digit pat k).
Proof. split; [|exact I]. intros s pos e v Hp H. apply re_match_some in H; tauto. Qed.
End General.

(** ** Equal functions *)
Section Laws.
Context {T : Type} {V : nat -> Type}.
Lemma law_regexp X (E : env T V) A (m m' : list T -> nat -> option (nat * option A)) :
  (forall s pos, pos <= List.length s -> m s pos = m' s pos) -> same_upto X E (GRegexp m) (GRegexp m').
Proof.
  intros H s pos c Hp.
  assert (P : forall q, q <= List.length s -> probe_re m s q = probe_re m' s q).
  { intros q Hq. unfold probe_re. rewrite H by exact Hq. reflexivity. }
  assert (K : forall k q, q + k <= List.length s ->
    skip_loop (fun cur => Ret (probe_re m s cur)) k q = skip_loop (fun cur => Ret (probe_re m' s cur)) k q).
  { induction k as [|k IH]; intros q Hq; [reflexivity|]. cbn. rewrite P by lia. destruct (probe_re m' s q); [reflexivity|]. apply IH. lia. }
  assert (S0 : skip_search s pos (fun cur => Ret (probe_re m s cur)) = skip_search s pos (fun cur => Ret (probe_re m' s cur))).
  { unfold skip_search. destruct (List.length s - S pos) as [|k] eqn:Q; [reflexivity|]. apply K. lia. }
  assert (F1 : forall n, fast E n (GRegexp m) s pos c = fast E n (GRegexp m') s pos c).
  { intros [|n]; [reflexivity|]. cbn [fast]. unfold regexp_fast. rewrite P by exact Hp. reflexivity. }
  assert (F2 : forall ins rem n, full E n (GRegexp m) s pos c ins rem = full E n (GRegexp m') s pos c ins rem).
  { intros ins rem [|n]; [reflexivity|]. cbn [full]. unfold regexp_full. rewrite P, S0 by exact Hp. reflexivity. }
  split; [|intros ins rem]; split; [intros r|intros _ e|intros r|intros _ e]; split; intros [n Hn]; exists n.
  all: first [rewrite <- F1; exact Hn|rewrite F1; exact Hn|rewrite <- F2; exact Hn|rewrite F2; exact Hn].
Qed.
Lemma law_fmap X (E : env T V) A B (p : gram T V A) (f f' : A -> out B) :
  (forall x, f x = f' x) -> same_upto X E (GFmap p f) (GFmap p f').
Proof.
  intros H s pos c Hp.
  assert (O : forall o : okr T A, ok_fmap f o = ok_fmap f' o) by (intros o; unfold ok_fmap; rewrite H; reflexivity).
  assert (F1 : forall n, fast E n (GFmap p f) s pos c = fast E n (GFmap p f') s pos c).
  { intros [|n]; [reflexivity|]. cbn [fast]. unfold fmap_fast. apply obind_ext. intros [o|e]; cbn; [|reflexivity].
    rewrite O. reflexivity. }
  assert (F2 : forall ins rem n, full E n (GFmap p f) s pos c ins rem = full E n (GFmap p f') s pos c ins rem).
  { intros ins rem [|n]; [reflexivity|]. cbn [full]. unfold fmap_full. apply obind_ext. intros [o|e|r]; cbn; [| reflexivity|].
    - rewrite O. reflexivity.
    - unfold rec_fmap. rewrite (mapM_ext (rep_fmap f) (rep_fmap f')); [reflexivity|]. intros x. unfold rep_fmap. rewrite H. reflexivity. }
  split; [|intros ins rem]; split; [intros r|intros _ e|intros r|intros _ e]; split; intros [n Hn]; exists n.
  all: first [rewrite <- F1; exact Hn|rewrite F1; exact Hn|rewrite <- F2; exact Hn|rewrite F2; exact Hn].
Qed.
End Laws.

(** ** The clients *)
Ltac open_clients := cbv delta [
  r_ows r_token r_punct r_integer r_number r_boolean r_null r_value r_member r_dict r_list r_scalar
  r_scan_E r_scan_parser r_spaces r_num r_mul_op r_add_op r_l_paren r_r_paren r_expr r_atom r_expr_E r_expr_parser
  r_eol r_yows r_ident r_colon r_ypair r_ypairs r_yvalue r_yaml_E r_yaml_parser
  ows spunct sinteger snumber sboolean snull svalue smember sdict slist sscalar scan_E scan_parser
  Readme.spaces Readme.number Readme.mul_op Readme.add_op Readme.l_paren Readme.r_paren Readme.expr Readme.atom Readme.term Readme.sum
  Readme.expr_E Readme.expr_parser
  Yamlish.yeol Yamlish.yows Yamlish.yident Yamlish.ycolon Yamlish.ypair Yamlish.ypairs Yamlish.yvalue Yamlish.yaml_E Yamlish.yaml_parser
  jinteger jnumber jboolean jnull jvalue jdict jlist jmember jscalar json_E json_parser
  seql seqr seq sep_by between chainl1 wf wf_env]; cbv beta.
Ltac wf_clients := open_clients; cbv delta [r_string_token r_string r_string_value r_token sstring sstring_value]; cbv beta; repeat first [match goal with |- gall _ (regexp _ _ _ _) => apply wf_regexp end | exact I | apply N.eqb_refl | discriminate | progress intros | split | progress cbn [gall wf_node] ].


#[local] Opaque pattern re_match.
Definition law {T V} B (p q : gram T V B) : Prop := forall E : env T V, wf_env E -> same_upto True E p q.
Ltac law_re :=
  apply rb_law; let W := fresh in intros ? W; apply law_regexp; intros;
  first [apply ows_eq|apply string_eq|apply integer_eq|apply number_eq|apply RegexEq.bool_eq|apply null_eq
        |apply spaces_eq|apply digits_eq|apply mul_eq|apply add_eq|apply eol_eq|apply ident_eq|apply yows_eq|apply colon_eq]; assumption.
Ltac rb_clients :=
  repeat first [exact (rb_delay _ _ _ 0) | law_re | apply rb_alike; first
    [ apply al_pure | apply al_purefn | apply al_eof | apply al_satisfy | apply al_sym | apply al_literal
    | apply al_fmap | apply al_alt | apply al_seq | apply al_maybe | apply al_many | apply al_attempt | apply al_label | apply al_recover
    | apply al_with | apply al_withfn | apply al_block | apply al_aligned | apply al_indented ] ].

Ltac wf_done := try (cbn in *; intuition (subst; auto using N.eqb_refl); fail).
Section Clients.
Variable space digit : char -> bool.
Section Scan.
Context {F : Type}.
Variable float_of : list char -> F.

Lemma r_scan_wf : wf (r_scan_parser space digit (F := F)).
Proof. wf_clients. all: wf_done. Qed.
Lemma r_scan_wf_E : wf_env (r_scan_E space digit float_of).
Proof. intros d. wf_clients. all: wf_done. Qed.
Notation E1 := (r_scan_E space digit float_of).
Notation E2 := (scan_E json_unescape json_int float_of).
Lemma string_law {A} (f : list char -> A) :
  law A (GFmap (r_string_token space digit (F := F)) (fun x => Ret (f (re_unescape space digit x))))
        (GFmap (GLabel (GRegexp (re_token pat_string)) "string") (fun x => Ret (f (json_unescape x)))).
Proof.
  intros E W. eapply same_trans; [apply law_fmap; intros x; rewrite unescape_eq; reflexivity|].
  apply C42_replace_components; [exact W| | |].
  - wf_clients. 
  - solve_gall. all: match goal with H : re_token _ _ _ = _ |- _ => apply wf_token in H; [lia| |assumption]; intros s' n y; apply le_string end.
  - apply rb_alike, al_fmap, rb_alike, al_label, rb_law. apply law_regexp. intros. apply string_eq. assumption.
Qed.
Lemma scan_rebuilt_E d : rebuilt law E1 E2 _ (E1 d) (E2 d).
Proof.
  open_clients. rb_clients.
  - apply rb_law. exact (string_law JStr).
  - apply rb_law. exact (string_law (fun x => x)).
  - apply rb_law. exact (string_law (fun x => x)).
Qed.
Lemma scan_rebuilt : rebuilt law E1 E2 _ (r_scan_parser space digit) scan_parser.
Proof. open_clients. rb_clients. Qed.
Lemma scan_transfer src x : (exists n, re_sloads space digit float_of n src = Ret x) <-> (exists n, sloads float_of n src = Ret x).
Proof.
  pose proof (C42_same_parse_results char _ True E1 E2 _ (r_scan_parser space digit) scan_parser src false 5 scannerless_get_loc linecol_fmt) as K.
  destruct K as [K _].
  { apply C42_replace_in_definitions; [apply r_scan_wf_E|apply scan_wf_E|apply r_scan_wf|apply scan_wf|apply scan_rebuilt_E|apply scan_rebuilt]. }
  unfold re_sloads, sloads, scan_loads, scannerless_parse. split; intros [n H];
    match type of H with (obind ?p _ = _) => destruct p as [r|e|] eqn:Q end; cbn in H; try discriminate; injection H as <-.
  - destruct (proj1 (K r)) as [m Hm]; [eauto|]. exists m. rewrite Hm. reflexivity.
  - destruct (proj2 (K r)) as [m Hm]; [eauto|]. exists m. rewrite Hm. reflexivity.
Qed.
End Scan.

Section Expr.
Variable dval : char -> Z.
Notation E1 := (r_expr_E space digit dval).
Notation E2 := (Readme.expr_E space digit dval).
Lemma r_expr_wf : wf (r_expr_parser).
Proof. wf_clients. all: wf_done. Qed.
Lemma r_expr_wf_E : wf_env E1.
Proof. intros d. wf_clients. all: wf_done. Qed.
Lemma expr_rebuilt_E d : rebuilt law E1 E2 _ (E1 d) (E2 d).
Proof. open_clients. rb_clients. Qed.
Lemma expr_rebuilt : rebuilt law E1 E2 _ r_expr_parser Readme.expr_parser.
Proof. open_clients. rb_clients. Qed.
Lemma expr_between : same_between True E1 E2 r_expr_parser Readme.expr_parser.
Proof. apply C42_replace_in_definitions; [apply r_expr_wf_E|apply expr_wf_E|apply r_expr_wf|apply wf_eof, expr_wf|apply expr_rebuilt_E|apply expr_rebuilt]. Qed.
Lemma expr_transfer src x : (exists n, re_eval space digit dval n src = Ret x) <-> (exists n, Readme.eval space digit dval n src = Ret x).
Proof.
  pose proof (C42_same_parse_results char _ True E1 E2 _ r_expr_parser Readme.expr_parser src false 5 scannerless_get_loc linecol_fmt expr_between) as [K _].
  unfold re_eval, Readme.eval, scannerless_parse. split; intros [n H];
    match type of H with (obind ?p _ = _) => destruct p as [r|e|] eqn:Q end; cbn in H; try discriminate; injection H as <-.
  - destruct (proj1 (K r)) as [m Hm]; [eauto|]. exists m. rewrite Hm. reflexivity.
  - destruct (proj2 (K r)) as [m Hm]; [eauto|]. exists m. rewrite Hm. reflexivity.
Qed.
End Expr.

Section Yaml.
Notation E1 := (r_yaml_E space digit).
Notation E2 := (Yamlish.yaml_E space).
Lemma r_yaml_wf : wf (r_yaml_parser space digit).
Proof. wf_clients. all: wf_done. Qed.
Lemma r_yaml_wf_E : wf_env E1.
Proof. intros d. wf_clients. all: wf_done. Qed.
Lemma yaml_rebuilt_E d : rebuilt law E1 E2 _ (E1 d) (E2 d).
Proof. open_clients. rb_clients. Qed.
Lemma yaml_rebuilt : rebuilt law E1 E2 _ (r_yaml_parser space digit) (Yamlish.yaml_parser space).
Proof. open_clients. rb_clients. Qed.
Lemma yaml_between : same_between True E1 E2 (r_yaml_parser space digit) (Yamlish.yaml_parser space).
Proof. apply C42_replace_in_definitions; [apply r_yaml_wf_E|apply yaml_wf_E|apply r_yaml_wf|apply yaml_wf|apply yaml_rebuilt_E|apply yaml_rebuilt]. Qed.
Lemma yaml_transfer src x : (exists n, re_yloads space digit n src = Ret x) <-> (exists n, Yamlish.yloads space n src = Ret x).
Proof.
  pose proof (C42_same_parse_results char _ True E1 E2 _ (r_yaml_parser space digit) (Yamlish.yaml_parser space) src false 5 scannerless_get_loc linecol_fmt yaml_between) as [K _].
  unfold re_yloads, Yamlish.yloads, scannerless_parse. split; intros [n H];
    match type of H with (obind ?p _ = _) => destruct p as [r|e|] eqn:Q end; cbn in H; try discriminate; injection H as <-.
  - destruct (proj1 (K r)) as [m Hm]; [eauto|]. exists m. rewrite Hm. reflexivity.
  - destruct (proj2 (K r)) as [m Hm]; [eauto|]. exists m. rewrite Hm. reflexivity.
Qed.
End Yaml.

Section Tokens.
Context {F : Type}.
Variable float_of : list char -> F.
Notation E1 := (json_E (re_unescape space digit) json_int float_of).
Notation E2 := (json_E json_unescape json_int float_of).
Lemma json_between : same_between True E1 E2 (json_parser (F := F)) json_parser.
Proof.
  apply C42_replace_in_definitions; [apply json_wf_E|apply json_wf_E|apply wf_eof, json_wf|apply wf_eof, json_wf| |apply rebuilt_refl].
  intros d. open_clients. rb_clients; try apply rebuilt_refl; apply rb_law; intros E W; apply law_fmap; intros x; rewrite unescape_eq; reflexivity.
Qed.
Lemma lex_eq src : forall n pos l acc, lex_loop (re_lex space digit (pattern true json_spec_text)) src n pos l acc = lex_loop json_spec src n pos l acc.
Proof.
  induction n as [|n IH]; intros pos l acc; [reflexivity|]. cbn [lex_loop]. destruct (Nat.ltb_spec pos (List.length src)); [|reflexivity].
  rewrite spec_eq by lia. destruct (json_spec src pos) as [[e g]|]; [apply IH|reflexivity].
Qed.
Lemma json_transfer src x : (exists n, re_loads space digit float_of n src = Ret x) <-> (exists n, loads float_of n src = Ret x).
Proof.
  unfold re_loads, loads, json_loads, split_tokens. split; intros [n H]; [rewrite lex_eq in H|].
  all: match type of H with (obind ?p _ = _) => destruct p as [[toks|l]|e|] eqn:Q end; cbn [obind] in H; try discriminate.
  2,4: injection H as <-; exists n; rewrite ?lex_eq, Q; reflexivity.
  all: match type of H with (obind ?p _ = _) => destruct p as [r|e|] eqn:Q' end; cbn [obind] in H; try discriminate; injection H as <-.
  all: pose proof (C42_same_parse_results token _ True E1 E2 _ json_parser json_parser toks false 5 lexer_get_loc linecol_fmt json_between) as [K _].
  all: unfold lexer_parse in *.
  - destruct (proj1 (K r)) as [m Hm]; [eauto|]. exists (Nat.max n m).
    rewrite (lex_loop_mono _ _ (Nat.max n m) n _ _ _ _ (Nat.le_max_l _ _) Q). cbn [obind].
    rewrite (PropsJson.parse_mono _ _ _ m (Nat.max n m) _ _ _ _ _ _ _ _ (Nat.le_max_r _ _) Hm). reflexivity.
  - destruct (proj2 (K r)) as [m Hm]; [eauto|]. exists (Nat.max n m). rewrite lex_eq.
    rewrite (lex_loop_mono _ _ (Nat.max n m) n _ _ _ _ (Nat.le_max_l _ _) Q). cbn [obind].
    rewrite (PropsJson.parse_mono _ _ _ m (Nat.max n m) _ _ _ _ _ _ _ _ (Nat.le_max_r _ _) Hm). reflexivity.
Qed.
End Tokens.
End Clients.
