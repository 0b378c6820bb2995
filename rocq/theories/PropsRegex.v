(** Property C70: regular expressions, and the client parsers with their
    patterns as they are written *)
From Verif Require Import RegexSpec RegexProofs RegexClients ClientsRe RegexEq RegexTransfer.
From Verif Require Import Json JsonSpec JsonText JsonTextSpec JsonScan JsonLL PropsScan LawSpec CongrSpec PropsCongr PropsJson PropsJsonText
  LexProofs ReadmeSpec YamlishSpec PropsReadme PropsYamlish ReadmeProofs ReadmeLL Examples.
From Verif Require Readme Yamlish.
From Coq Require Import Lia.
From Verif Require Import Spec.

Section General.
Variable space digit : char -> bool.
Notation matches := (matches space digit).

(** ** [re.match]: what is matched starts at [pos] and is described by the
    pattern; group 0 is the whole match *)
Theorem C70_match : forall r k s pos e v, pos <= List.length s ->
  re_match space digit r k s pos = Some (e, v) ->
  pos <= e <= List.length s /\ matches r (firstn (e - pos) (skipn pos s)) /\
  (k = 0 -> v = Some (firstn (e - pos) (skipn pos s))).
Proof. exact (re_match_some space digit). Qed.
(** there is no match only if nothing that starts at [pos] is described *)
Theorem C70_no_match : forall r k s pos, pos <= List.length s ->
  re_match space digit r k s pos = None <->
  forall e, pos <= e <= List.length s -> ~ matches r (firstn (e - pos) (skipn pos s)).
Proof. exact (re_match_none space digit). Qed.
(** which of the described texts is matched: the one that the backtracking search finds *)
Theorem C70_search : forall r k s pos,
  re_match space digit r k s pos =
  search space digit r (skipn pos s) [] (fun rest c => Some (List.length s - List.length rest, group k (skipn pos s) rest c)).
Proof.
  intros r k s pos. unfold re_match, re_first. rewrite search_ways.
  destruct (ways space digit r (skipn pos s) []) as [|[t c] l]; reflexivity.
Qed.
(** the other groups are parts of the match, described by what is inside the group *)
Theorem C70_groups : forall r k s pos e x, pos <= List.length s -> k <> 0 ->
  re_match space digit r k s pos = Some (e, Some x) ->
  exists name body a b, group_in k name body r /\ matches body x /\ firstn (e - pos) (skipn pos s) = a ++ x ++ b.
Proof.
  intros r k s pos e x Hp Hk H. pose proof H as H0. apply re_match_some in H0 as (B & _ & _); [|exact Hp].
  revert H. unfold re_match, re_first. destruct (ways space digit r (skipn pos s) []) as [|[t c] l] eqn:Q; [discriminate|].
  intros H. injection H as <- H. destruct k as [|k]; [contradiction|]. cbn [group] in H. apply group_of_in in H as [name I].
  assert (W : In (t, c) (ways space digit r (skipn pos s) [])) by (rewrite Q; left; reflexivity).
  pose proof (ways_sound _ _ _ _ _ _ _ W) as (w & E & _).
  apply ways_caps in W as (new & -> & C). rewrite app_nil_r in I. destruct (C _ _ _ I) as (body & a & b & G & M & E2).
  exists name, body, a, b. split; [exact G|]. split; [exact M|]. rewrite E2.
  assert (L : List.length (skipn pos s) = List.length (a ++ x ++ b) + List.length t) by (rewrite E2, !app_length; lia).
  rewrite skipn_length in L. replace (a ++ x ++ b ++ t) with ((a ++ x ++ b) ++ t) by (rewrite <- !app_assoc; reflexivity).
  rewrite firstn_app. replace (List.length s - List.length t - pos) with (List.length (a ++ x ++ b)) by lia.
  rewrite Nat.sub_diag, firstn_all. cbn. apply app_nil_r.
Qed.
(** so [regexp(pat, k)] and [split_tokens(src, spec)] meet what the other properties ask of them *)
Theorem C70_well_formed : forall V pat k r src,
  wf (V := V) (regexp space digit pat k) /\ lex_wf (re_lex space digit r) src.
Proof.
  intros V pat k r src. split; [apply wf_regexp|]. intros p e g Hp H.
  assert (X : exists v, re_match space digit r 0 src p = Some (e, v)).
  { unfold re_lex in H. unfold re_match. destruct (re_first space digit r (skipn p src)) as [[t c]|]; [|discriminate].
    injection H as <- _. eauto. }
  destruct X as [v X]. apply re_match_some in X; tauto.
Qed.
End General.
Print Assumptions C70_match.
Print Assumptions C70_no_match.
Print Assumptions C70_search.
Print Assumptions C70_groups.
Print Assumptions C70_well_formed.

Section Clients.
Variable space digit : char -> bool.

(** ** tests/parsers/json.py with the texts of [spec] and [escape] *)
Theorem C70_json : forall F (float_of : list char -> F) src x,
  (exists n, re_loads space digit float_of n src = Ret x) <-> (exists n, loads float_of n src = Ret x).
Proof. intros. apply json_transfer. Qed.
Theorem C70_json_text : forall F (float_of : list char -> F) src v,
  (exists n, re_loads space digit float_of n src = Ret (Loads (Returns v))) <->
  exists toks, written src toks /\ is_json json_unescape json_int float_of toks v.
Proof. intros. rewrite json_transfer. apply C62_text. Qed.

(** ** tests/parsers/json_scannerless.py: without recovery [loads] gives the
    same results and exceptions as the model with functions, and so does
    [parse] with and without recovery *)
Theorem C70_scannerless : forall F (float_of : list char -> F) src,
  (forall x, (exists n, re_sloads space digit float_of n src = Ret x) <-> (exists n, sloads float_of n src = Ret x)) /\
  forall rec k get fmt, agree True
    (fun n => parse (r_scan_E space digit float_of) n (r_scan_parser space digit) src rec k get fmt)
    (fun n => parse (scan_E json_unescape json_int float_of) n scan_parser src rec k get fmt).
Proof.
  intros F float_of src. split; [intros x; apply scan_transfer|]. intros. apply C42_same_parse_results.
  apply C42_replace_in_definitions; [apply r_scan_wf_E|apply scan_wf_E|apply r_scan_wf|apply scan_wf|apply scan_rebuilt_E|apply scan_rebuilt].
Qed.
Theorem C70_scannerless_text : forall F (float_of : list char -> F) src v,
  (exists n, re_sloads space digit float_of n src = Ret (Returns v)) <->
  exists toks, written src toks /\ is_json json_unescape json_int float_of toks v.
Proof. intros. rewrite scan_transfer. apply C66_text. Qed.

(** ** tests/parsers/expr.py (README.md) *)
Theorem C70_expr : forall dval src,
  (forall x, (exists n, re_eval space digit dval n src = Ret x) <-> (exists n, Readme.eval space digit dval n src = Ret x)) /\
  forall rec k get fmt, agree True
    (fun n => parse (r_expr_E space digit dval) n r_expr_parser src rec k get fmt)
    (fun n => parse (Readme.expr_E space digit dval) n Readme.expr_parser src rec k get fmt).
Proof. intros dval src. split; [intros x; apply expr_transfer|]. intros. apply C42_same_parse_results, expr_between. Qed.
Theorem C70_expr_text : charset space digit -> forall dval src v,
  (exists n, re_eval space digit dval n src = Ret (Returns v)) <-> is_sum space digit dval src v.
Proof. intros cs dval src v. rewrite expr_transfer. apply C63_eval. exact cs. Qed.

(** ** tests/parsers/yamlish.py *)
Theorem C70_yamlish : forall src,
  (forall x, (exists n, re_yloads space digit n src = Ret x) <-> (exists n, Yamlish.yloads space n src = Ret x)) /\
  forall rec k get fmt, agree True
    (fun n => parse (r_yaml_E space digit) n (r_yaml_parser space digit) src rec k get fmt)
    (fun n => parse (Yamlish.yaml_E space) n (Yamlish.yaml_parser space) src rec k get fmt).
Proof. intros src. split; [intros x; apply yaml_transfer|]. intros. apply C42_same_parse_results, yaml_between. Qed.
Theorem C70_yamlish_text : (forall c, letter c -> space c = false) -> forall src v,
  (exists n, re_yloads space digit n src = Ret (Returns v)) <-> means space src v.
Proof. intros H src v. rewrite yaml_transfer. apply C67_text. exact H. Qed.
End Clients.
Print Assumptions C70_json.
Print Assumptions C70_json_text.
Print Assumptions C70_scannerless.
Print Assumptions C70_scannerless_text.
Print Assumptions C70_expr.
Print Assumptions C70_expr_text.
Print Assumptions C70_yamlish.
Print Assumptions C70_yamlish_text.

(** ** Cases *)
Notation sp := Readme.ascii_space.
Notation dg := Readme.ascii_digit.
(** all patterns of the clients can be read *)
Theorem C70_readable :
  Forall (fun p => compile (fst p) (snd p) <> None)
    [(true, json_spec_text); (true, escape_text); (false, string_text); (false, "[ \n\r\t]*"); (false, "(true|false)[ \n\r\t]*");
     (false, "\n\s*"); (false, "\s*"); (false, "[a-zA-Z_][a-zA-Z_0-9]*"); (false, "\d+"); (false, "[*]"); (false, "[-+]")]%string.
Proof. repeat constructor; vm_compute; discriminate. Qed.
(** scannerless.py:42-52: [regexp("a(.)", 1)] *)
Example C70_case_group :
  (re_match sp dg (pattern false "a(.)") 1 (ex_str "ab") 0, re_match sp dg (pattern false "a(.)") 1 (ex_str "bb") 0)
  = (Some (2, Some (ex_str "b")), None).
Proof. vm_compute. reflexivity. Qed.
(** lexer.py:88-94 *)
Example C70_case_lexer :
  option_map (map (fun t => (tk_kind t, tk_value t)))
    (match split_tokens 20 (ex_str "1 + 2 + 3") (re_lex sp dg (pattern false "(?P<num>[0-9]+)|(?P<op>[+])|\s+")) with
     | Ret (LexOk l) => Some l | _ => None end)
  = Some [("num", ex_str "1"); ("op", ex_str "+"); ("num", ex_str "2"); ("op", ex_str "+"); ("num", ex_str "3")]%string.
Proof. vm_compute. reflexivity. Qed.
(** the first alternative wins, repetition gives back, the last group to be closed names the match *)
Example C70_case_order :
  (re_match sp dg (pattern false "a|ab") 0 (ex_str "ab") 0,
   re_match sp dg (pattern false "a*ab") 0 (ex_str "aaab") 0,
   re_match sp dg (pattern false "(a|b)*") 1 (ex_str "aba") 0,
   re_lex sp dg (pattern false "(?P<x>a(?P<y>b)?)") (ex_str "ab") 0)
  = (Some (1, Some (ex_str "a")), Some (4, Some (ex_str "aaab")), Some (3, Some (ex_str "a")), Some (2, Some ("x"%string, ex_str "ab"))).
Proof. vm_compute. reflexivity. Qed.
(** a negated class *)
Example C70_case_negated :
  (re_match sp dg (pattern false "[^ab]+") 0 (ex_str "xyazb") 0, re_match sp dg (pattern false "[^ab]+") 0 (ex_str "axy") 0)
  = (Some (2, Some (ex_str "xy")), None).
Proof. vm_compute. reflexivity. Qed.
(** what the reader refuses *)
Example C70_case_refused :
  map (compile false) ["(a*)*"; "a**"; "a*?"; "^a"; "(?=a)"; "[b-a]"; "(a"; "a)"; "\1"]%string = repeat None 9.
Proof. vm_compute. reflexivity. Qed.
Example C70_case_json :
  @re_loads sp dg (list char) (fun x => x) 200 c62_src = Ret (Loads (Returns c62_value)).
Proof. vm_compute. reflexivity. Qed.
