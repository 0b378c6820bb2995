(** The patterns of the client parsers, read from their texts, match exactly
    what the hand-written functions match. *)
From Verif Require Export RegexClients ClientsRe.
From Verif Require Import Json JsonText JsonScan JsonTextProofs.
From Verif Require Readme Yamlish.
From Coq Require Import Lia.
Local Open Scope N_scope.

Section Eq.
Variable space digit : char -> bool.
Notation ways := (ways space digit).
Notation rests := (rests space digit).
Notation re_first := (re_first space digit).
Notation class_is := (class_is space digit).

Lemma first_hd r s : re_first r s = hd_error (ways r s []).
Proof. unfold Regex.re_first. destruct (ways r s []); reflexivity. Qed.
Lemma hd_app {X} (l l' : list X) : hd_error (l ++ l') = match hd_error l with Some x => Some x | None => hd_error l' end.
Proof. destruct l; reflexivity. Qed.
Lemma hd_map {X Y} (f : X -> Y) l : hd_error (map f l) = option_map f (hd_error l).
Proof. destruct l; reflexivity. Qed.
Lemma first_alt r1 r2 s : re_first (RAlt r1 r2) s = match re_first r1 s with Some w => Some w | None => re_first r2 s end.
Proof. rewrite !first_hd, ways_alt, hd_app. reflexivity. Qed.
Lemma first_plain r s : plain r = true -> re_first r s = option_map (fun t => (t, [])) (hd_error (rests r s)).
Proof. intros P. rewrite first_hd, ways_rests by exact P. apply hd_map. Qed.
Lemma first_group k name r s : plain r = true ->
  re_first (RGroup k name r) s = option_map (fun t => (t, [(k, name, taken s t)])) (hd_error (rests r s)).
Proof.
  intros P. rewrite first_hd, ways_group, ways_rests by exact P. unfold with_caps. rewrite map_map, hd_map. reflexivity.
Qed.
Lemma taken_skipn n s : (n <= List.length s)%nat -> taken s (skipn n s) = firstn n s.
Proof. intros H. unfold taken. rewrite skipn_length. f_equal. lia. Qed.
Lemma found_hd l o s P : found l o s P -> hd_error l = option_map (fun n => skipn n s) o /\ forall n, o = Some n -> (n <= List.length s)%nat.
Proof.
  destruct o as [n|]; cbn [found].
  - intros (L & l' & -> & _). split; [reflexivity|]. intros m [= <-]. exact L.
  - intros ->. split; [reflexivity|discriminate].
Qed.
(** the first match of a pattern followed by something that never fails *)
Lemma hd_flat {X Y} (f : X -> list Y) l : (forall x, f x <> []) ->
  hd_error (flat_map f l) = match hd_error l with Some x => hd_error (f x) | None => None end.
Proof. intros H. destruct l as [|x l]; [reflexivity|]. cbn. pose proof (H x). destruct (f x); [contradiction|reflexivity]. Qed.

Fixpoint lits (x : list char) : regex :=
  match x with [] => REps | a :: x' => match x' with [] => lit a | _ => RCat (lit a) (lits x') end end.
Lemma plain_lits x : plain (lits x) = true.
Proof. induction x as [|a [|b x] IH]; [reflexivity|reflexivity|]. cbn in *. exact IH. Qed.
Lemma rests_lits x s : x <> [] -> rests (lits x) s = if starts x s then [skipn (List.length x) s] else [].
Proof.
  revert s. induction x as [|a x IH]; intros s Hx; [contradiction|]. destruct x as [|b x].
  - cbn [lits]. rewrite rests_lit. destruct s as [|c s]; [reflexivity|]. cbn. rewrite (N.eqb_sym c a). destruct (N.eqb a c); reflexivity.
  - change (lits (a :: b :: x)) with (RCat (lit a) (lits (b :: x))). rewrite rests_cat by (try apply plain_lits; reflexivity).
    rewrite rests_lit. destruct s as [|c s]; [reflexivity|].
    change (starts (a :: b :: x) (c :: s)) with ((a =? c) && starts (b :: x) s). rewrite (N.eqb_sym c a).
    destruct (N.eqb a c); [|reflexivity]. cbn [flat_map andb]. rewrite app_nil_r. apply IH. discriminate.
Qed.
Lemma starts_len x s : starts x s = true -> (List.length x <= List.length s)%nat.
Proof.
  revert s. induction x as [|a x IH]; intros [|b s] H; cbn in *; try lia; try discriminate.
  apply andb_prop in H as [_ H]. apply IH in H. lia.
Qed.
Lemma starts_firstn x s : starts x s = true -> firstn (List.length x) s = x.
Proof.
  revert s. induction x as [|a x IH]; intros [|b s] H; cbn in *; try reflexivity; try discriminate.
  apply andb_prop in H as [E H]. apply N.eqb_eq in E as ->. f_equal. apply IH. exact H.
Qed.

(** ** The lexer specification of json.py *)
Definition WSI : list item := [IChar 32; IChar 10; IChar 13; IChar 9].
Lemma class_ws : class_is WSI is_ws.
Proof. intros c. cbn. rewrite orb_false_r, !orb_assoc. reflexivity. Qed.
Definition PUNCT : regex := RSet false [IChar 123; IChar 125; IChar 58; IChar 44; IChar 91; IChar 93].
Definition SPEC : regex :=
  RAlt (RCat (RSet false WSI) (RStar (RSet false WSI)))
  (RAlt (RGroup 1 (Some "punct"%string) PUNCT)
  (RAlt (RGroup 2 (Some "bool"%string) (RAlt (lits (ascii_chars "true")) (lits (ascii_chars "false"))))
  (RAlt (RGroup 3 (Some "null"%string) (lits (ascii_chars "null")))
  (RAlt (RGroup 4 (Some "float"%string) FLOAT)
  (RAlt (RGroup 5 (Some "integer"%string) INT)
  (RAlt (STRING 6 (Some "string"%string) (lit 34))
        (RGroup 7 (Some "_"%string) RDot))))))).
Lemma spec_compiles : compile true json_spec_text = Some SPEC.
Proof. vm_compute. reflexivity. Qed.

Lemma quote_only t (c : captures) : (forall t', t <> 34 :: t') -> ways (lit 34) t c = [].
Proof. intros H. rewrite ways_lit. destruct t as [|x t]; [reflexivity|]. destruct (N.eqb_spec x 34) as [->|]; [destruct (H t eq_refl)|reflexivity]. Qed.
Lemma string_bound s n : string_len s = Some n -> (n + 2 <= List.length s)%nat /\ exists t, skipn (S n) s = 34 :: t.
Proof.
  unfold string_len. destruct s as [|c s]; [discriminate|]. destruct (N.eqb c 34); [|discriminate]. intros H.
  destruct (star_item space digit _ s (le_n _)) as (m & l' & L & _ & _ & B). rewrite B in H. unfold quoted in H.
  destruct (skipn m s) as [|x t] eqn:T; [discriminate|]. destruct (N.eqb_spec x 34) as [->|]; [|discriminate].
  pose proof (skipn_length m s) as X. rewrite T in X. cbn [List.length] in *.
  assert (n = m) by (destruct (List.length s - S (List.length t))%nat eqn:Q; [discriminate|]; injection H as <-; lia). subst m.
  split; [lia|]. exists t. exact T.
Qed.

Lemma spec_eq s pos : (pos <= List.length s)%nat -> re_lex space digit (pattern true json_spec_text) s pos = json_spec s pos.
Proof.
  intros Hp. unfold pattern. rewrite spec_compiles. unfold re_lex, json_spec.
  assert (L : List.length s = (pos + List.length (skipn pos s))%nat) by (rewrite skipn_length; lia).
  rewrite L. generalize (skipn pos s) as t. clear s Hp L. intros s.
  assert (G : forall k name n, (n <= List.length s)%nat ->
    match Some (skipn n s, [(k, Some name, taken s (skipn n s))]) with
    | Some (rest, c) => Some ((pos + List.length s - List.length rest)%nat,
        match lastgroup c with Some kind => option_map (fun x => (kind, x)) (group_named kind c) | None => None end)
    | None => None end = Some ((pos + n)%nat, Some (name, firstn n s)) :> option (nat * option (string * list char))).
  { intros k name n Hn. rewrite taken_skipn, skipn_length by exact Hn. cbn [lastgroup group_named option_map].
    rewrite String.eqb_refl. cbn. f_equal. f_equal. lia. }
  unfold SPEC. rewrite first_alt, first_plain by reflexivity.
  pose proof (plus_class space digit WSI is_ws s class_ws) as F. apply found_hd in F as [F Fb]. rewrite F. clear F.
  destruct s as [|c s'] eqn:Es; [reflexivity|]. rewrite <- Es in *. assert (L1 : (1 <= List.length s)%nat) by (rewrite Es; cbn; lia).
  destruct (is_ws c) eqn:W.
  { assert (P : (0 < span is_ws s)%nat) by (rewrite Es; apply span_pos; exact W). destruct (span is_ws s) as [|m] eqn:Q; [lia|].
    cbn [option_map]. specialize (Fb _ eq_refl). rewrite skipn_length. cbn [lastgroup]. f_equal. f_equal. lia. }
  replace (span is_ws s) with O by (rewrite Es; cbn [span]; rewrite W; reflexivity). cbn [option_map]. clear Fb.
  rewrite first_alt, first_group by reflexivity. unfold PUNCT. rewrite rests_set. rewrite Es at 1.
  assert (CP : existsb (in_item space digit c) [IChar 123; IChar 125; IChar 58; IChar 44; IChar 91; IChar 93] = is_punct_char c).
  { cbn. rewrite orb_false_r, !orb_assoc. reflexivity. }
  rewrite CP. clear CP. destruct (is_punct_char c) eqn:P.
  { cbn [hd_error option_map]. replace s' with (skipn 1 s) by (rewrite Es; reflexivity). apply G. exact L1. }
  cbn [hd_error option_map]. rewrite first_alt, first_group by reflexivity. rewrite rests_alt, !rests_lits by discriminate.
  destruct (starts (ascii_chars "true") s) eqn:S1.
  { cbn [app hd_error option_map]. apply G. apply starts_len in S1. exact S1. }
  destruct (starts (ascii_chars "false") s) eqn:S2.
  { cbn [app hd_error option_map]. apply G. apply starts_len in S2. exact S2. }
  cbn [app hd_error option_map]. rewrite first_alt, first_group by reflexivity. rewrite rests_lits by discriminate.
  destruct (starts (ascii_chars "null") s) eqn:S3.
  { cbn [app hd_error option_map]. apply G. apply starts_len in S3. exact S3. }
  cbn [app hd_error option_map]. rewrite first_alt, first_group by reflexivity.
  pose proof (float_first space digit s) as FF. destruct (float_len s) as [n|].
  { destruct FF as [B ->]. cbn [option_map]. apply G. exact B. }
  rewrite FF. cbn [hd_error option_map]. rewrite first_alt, first_group by reflexivity.
  pose proof (int_found space digit s) as FI. apply found_hd in FI as [FI Fb]. rewrite FI. destruct (int_len s) as [n|].
  { cbn [option_map]. apply G. apply Fb. reflexivity. }
  cbn [option_map]. rewrite first_alt. rewrite first_hd, string_ways by (intros; apply quote_only; assumption).
  destruct (string_len s) as [n|] eqn:SL.
  { destruct (string_bound _ _ SL) as [B [t T]]. rewrite ways_lit, T. rewrite N.eqb_refl. cbn [hd_error lastgroup group_named option_map].
    cbn. f_equal. f_equal. pose proof (skipn_length (S n) s) as X. rewrite T in X. cbn in X. unfold char in *. lia. }
  cbn [hd_error]. rewrite first_group by reflexivity.
  assert (DT : rests RDot s = if N.eqb c 10 then [] else [s']) by (rewrite Es; cbv [RegexClients.rests]; cbn; destruct (N.eqb c 10); reflexivity).
  rewrite DT. destruct (N.eqb_spec c 10) as [->|]; [discriminate W|]. cbn [hd_error option_map].
  replace s' with (skipn 1 s) by (rewrite Es; reflexivity). apply G. exact L1.
Qed.

(** ** unescape *)
Definition ESCAPE : regex :=
  RCat (lit 92) (RAlt (RGroup 1 (Some "simple"%string) SIMPLE) (RCat (lit 117) (RGroup 2 (Some "unicode"%string) HEX4))).
Lemma escape_compiles : compile true escape_text = Some ESCAPE.
Proof. vm_compute. reflexivity. Qed.
Lemma escape_first s : re_first ESCAPE s =
  match s with
  | c :: e :: s'' =>
      if c =? 92 then
        if is_simple e then Some (s'', [(1%nat, Some "simple"%string, [e])])
        else if e =? 117 then
          match s'' with
          | h1 :: h2 :: h3 :: h4 :: t =>
              if is_hex h1 && is_hex h2 && is_hex h3 && is_hex h4
              then Some (t, [(2%nat, Some "unicode"%string, [h1; h2; h3; h4])]) else None
          | _ => None
          end
        else None
      else None
  | _ => None
  end.
Proof.
  unfold ESCAPE. rewrite first_hd, ways_cat, ways_lit. destruct s as [|c s]; [reflexivity|].
  destruct (N.eqb c 92); [|destruct s; reflexivity]. cbn [flat_map fst snd]. rewrite app_nil_r, ways_alt, ways_group, ways_cat, ways_lit.
  rewrite ways_rests, rests_simple by reflexivity. destruct s as [|e s]; [reflexivity|].
  destruct (is_simple e) eqn:Q.
  - cbn [with_caps map fst snd hd_error app]. change (e :: s) with ([e] ++ s). rewrite taken_app. reflexivity.
  - cbn [with_caps map fst snd app]. destruct (N.eqb e 117); [|reflexivity]. cbn [flat_map fst snd]. rewrite app_nil_r, ways_group, ways_rests, rests_hex4 by reflexivity.
    destruct s as [|h1 [|h2 [|h3 [|h4 s]]]]; try reflexivity. destruct (_ && _); [|reflexivity].
    cbn [with_caps map fst snd hd_error]. change (h1 :: h2 :: h3 :: h4 :: s) with ([h1; h2; h3; h4] ++ s). rewrite taken_app. reflexivity.
Qed.
Lemma sub_eq : forall n s, (List.length s <= n)%nat -> re_sub_go space digit ESCAPE escape_sub n s = json_unescape s.
Proof.
  induction n as [|n IH]; intros s Hn.
  { destruct s; [reflexivity|cbn in Hn; lia]. }
  destruct s as [|c s]; [reflexivity|]. cbn [re_sub_go]. rewrite escape_first. cbn in Hn.
  destruct s as [|e s].
  { cbn [json_unescape]. rewrite IH by (cbn; lia). destruct (c =? 92); reflexivity. }
  cbn [List.length] in Hn. change (json_unescape (c :: e :: s)) with
    (if c =? 92 then
       if is_simple e then simple_of e :: json_unescape s
       else if e =? 117 then
         match s with
         | h1 :: h2 :: h3 :: h4 :: t =>
             if is_hex h1 && is_hex h2 && is_hex h3 && is_hex h4 then hex4 h1 h2 h3 h4 :: json_unescape t else c :: json_unescape (e :: s)
         | _ => c :: json_unescape (e :: s)
         end
       else c :: json_unescape (e :: s)
     else c :: json_unescape (e :: s)).
  destruct (c =? 92).
  - destruct (is_simple e).
    { rewrite IH by lia. reflexivity. }
    destruct (e =? 117).
    + destruct s as [|h1 [|h2 [|h3 [|h4 s]]]]; try (rewrite IH by (cbn in *; lia); reflexivity).
      destruct (_ && _); [|rewrite IH by (cbn in *; lia); reflexivity].
      rewrite IH by (cbn in *; lia). cbn. reflexivity.
    + rewrite IH by (cbn; lia). reflexivity.
  - rewrite IH by (cbn; lia). reflexivity.
Qed.
Lemma unescape_eq s : re_unescape space digit s = json_unescape s.
Proof. unfold re_unescape, pattern. rewrite escape_compiles. apply sub_eq. lia. Qed.

(** ** Tokens of json_scannerless.py *)
Definition WSTAR : regex := RStar (RSet false WSI).
Lemma ws_first s c : hd_error (ways WSTAR s c) = Some (skipn (span is_ws s) s, c).
Proof.
  unfold WSTAR. rewrite ways_rests by reflexivity. unfold with_caps. rewrite hd_map.
  destruct (star_class space digit WSI is_ws s class_ws) as (_ & l' & -> & _). reflexivity.
Qed.
Lemma ws_total s c : ways WSTAR s c <> [].
Proof. pose proof (ws_first s c) as H. intros E. rewrite E in H. discriminate. Qed.
Lemma span_le p s : (span p s <= List.length s)%nat.
Proof. apply span_split. Qed.
Lemma ows_eq s pos : (pos <= List.length s)%nat -> re_match space digit (pattern false "[ \n\r\t]*") 0 s pos = re_ows s pos.
Proof.
  intros Hp. replace (pattern false "[ \n\r\t]*") with WSTAR by (vm_compute; reflexivity).
  unfold re_match, re_ows. rewrite first_hd, ws_first. cbn [group]. pose proof (span_le is_ws (skipn pos s)) as B.
  rewrite taken_skipn by exact B. rewrite skipn_length in *. rewrite skipn_length. f_equal. f_equal. lia.
Qed.
Lemma token_eq r f :
  plain r = true ->
  (forall s, match f s with
    | Some (n, v) => (n <= List.length s)%nat /\ v = firstn n s /\ hd_error (rests r s) = Some (skipn n s)
    | None => hd_error (rests r s) = None end) ->
  forall s pos, (pos <= List.length s)%nat ->
  re_match space digit (RCat (RGroup 1 None r) WSTAR) 1 s pos = re_token f s pos.
Proof.
  intros P H s pos Hp. unfold re_match, re_token. specialize (H (skipn pos s)).
  assert (E : re_first (RCat (RGroup 1 None r) WSTAR) (skipn pos s) =
    match f (skipn pos s) with
    | Some (n, v) => Some (skipn (span is_ws (skipn n (skipn pos s))) (skipn n (skipn pos s)), [(1%nat, None, v)])
    | None => None end).
  { rewrite first_hd, ways_cat, hd_flat by (intros; apply ws_total). rewrite ways_group, ways_rests by exact P.
    unfold with_caps. rewrite map_map, hd_map. destruct (f (skipn pos s)) as [[n v]|].
    - destruct H as (B & -> & ->). cbn [option_map fst snd]. rewrite ws_first, taken_skipn by exact B. reflexivity.
    - rewrite H. reflexivity. }
  rewrite E. destruct (f (skipn pos s)) as [[n v]|]; [|reflexivity]. destruct H as (B & _ & _). cbn [group group_of Nat.eqb].
  f_equal. f_equal. pose proof (span_le is_ws (skipn n (skipn pos s))) as B2. rewrite !skipn_length in *. lia.
Qed.
Lemma integer_eq s pos : (pos <= List.length s)%nat ->
  re_match space digit (pattern false ("(-?(?:0|[1-9][0-9]*))" ++ "[ \n\r\t]*")) 1 s pos = re_token pat_integer s pos.
Proof.
  replace (pattern false _) with (RCat (RGroup 1 None INT) WSTAR) by (vm_compute; reflexivity). apply token_eq; [reflexivity|].
  intros t. unfold pat_integer, whole. destruct (found_hd _ _ _ _ (int_found space digit t)) as [H B].
  destruct (int_len t) as [n|]; [|exact H]. split; [apply B; reflexivity|]. split; [reflexivity|exact H].
Qed.
Lemma number_eq s pos : (pos <= List.length s)%nat ->
  re_match space digit (pattern false ("(-?(?:0|[1-9][0-9]*)(?:(?:\.[0-9]+)?(?:[eE][-+]?[0-9]+)|(?:\.[0-9]+)))" ++ "[ \n\r\t]*")) 1 s pos
  = re_token pat_number s pos.
Proof.
  replace (pattern false _) with (RCat (RGroup 1 None FLOAT) WSTAR) by (vm_compute; reflexivity). apply token_eq; [reflexivity|].
  intros t. unfold pat_number, whole. pose proof (float_first space digit t) as F.
  destruct (float_len t) as [n|]; [|rewrite F; reflexivity]. destruct F as [B F]. split; [exact B|]. split; [reflexivity|exact F].
Qed.
Lemma bool_eq s pos : (pos <= List.length s)%nat ->
  re_match space digit (pattern false ("(true|false)" ++ "[ \n\r\t]*")) 1 s pos = re_token pat_bool s pos.
Proof.
  replace (pattern false _) with (RCat (RGroup 1 None (RAlt (lits (ascii_chars "true")) (lits (ascii_chars "false")))) WSTAR) by (vm_compute; reflexivity).
  apply token_eq; [reflexivity|].
  intros t. unfold pat_bool. rewrite rests_alt, !rests_lits by discriminate.
  destruct (starts (ascii_chars "true") t) eqn:S1.
  { split; [apply (starts_len _ _ S1)|]. split; [symmetry; apply (starts_firstn _ _ S1)|reflexivity]. }
  destruct (starts (ascii_chars "false") t) eqn:S2; [|reflexivity].
  split; [apply (starts_len _ _ S2)|]. split; [symmetry; apply (starts_firstn _ _ S2)|reflexivity].
Qed.
Lemma null_eq s pos : (pos <= List.length s)%nat ->
  re_match space digit (pattern false ("(null)" ++ "[ \n\r\t]*")) 1 s pos = re_token pat_null s pos.
Proof.
  replace (pattern false _) with (RCat (RGroup 1 None (lits (ascii_chars "null"))) WSTAR) by (vm_compute; reflexivity).
  apply token_eq; [reflexivity|].
  intros t. unfold pat_null. rewrite !rests_lits by discriminate.
  destruct (starts (ascii_chars "null") t) eqn:S1; [|reflexivity].
  split; [apply (starts_len _ _ S1)|]. split; [symmetry; apply (starts_firstn _ _ S1)|reflexivity].
Qed.
Definition string_text : string :=
  (("""((?:[\x20\x21\x23-\x5B\x5D-\U0010FFFF]|" ++ "\\(?:[""\\/bfnrt]|u[0-9a-fA-F]{4}))+)""") ++ "[ \n\r\t]*")%string.
Lemma string_eq s pos : (pos <= List.length s)%nat ->
  re_match space digit (pattern false string_text) 1 s pos = re_token pat_string s pos.
Proof.
  intros Hp. replace (pattern false _) with (STRING 1 None (RCat (lit 34) WSTAR)) by (vm_compute; reflexivity).
  unfold re_match, re_token, pat_string.
  rewrite first_hd, string_ways.
  2:{ intros t c H. rewrite ways_cat, (quote_only t c H). reflexivity. }
  destruct (string_len (skipn pos s)) as [n|] eqn:Q; [|reflexivity].
  destruct (string_bound _ _ Q) as [B [t T]].
  assert (T2 : skipn (n + 2) (skipn pos s) = t).
  { replace (n + 2)%nat with (S n + 1)%nat by lia. rewrite <- skipn_plus, T. reflexivity. }
  rewrite ways_cat, ways_lit, T. rewrite N.eqb_refl. cbn [flat_map fst snd]. rewrite app_nil_r, ws_first, T2.
  cbn [group group_of Nat.eqb]. f_equal. f_equal. pose proof (span_le is_ws t) as B2.
  pose proof (skipn_length (S n) (skipn pos s)) as X. rewrite T in X. cbn [List.length] in X. rewrite skipn_length in *.
  unfold char in *. lia.
Qed.

(** ** expr.py and yamlish.py *)
Lemma run_span f s : Readme.run_len f s = span f s.
Proof. induction s as [|c s IH]; cbn; [reflexivity|]. destruct (f c); [rewrite IH|]; reflexivity. Qed.
Lemma match0 r s pos n : (pos <= List.length s)%nat -> (n <= List.length (skipn pos s))%nat ->
  re_first r (skipn pos s) = Some (skipn n (skipn pos s), []) ->
  re_match space digit r 0 s pos = Some ((pos + n)%nat, Some (firstn n (skipn pos s))).
Proof.
  intros Hp Hn E. unfold re_match. rewrite E. cbn [group]. rewrite taken_skipn by exact Hn. rewrite !skipn_length in *.
  f_equal. f_equal. lia.
Qed.
Lemma class_one l p : class_is l p -> forall s, rests (RSet false l) s = match s with c :: s' => if p c then [s'] else [] | [] => [] end.
Proof. intros H s. rewrite rests_set. destruct s as [|c s]; [reflexivity|]. rewrite H. reflexivity. Qed.
Lemma star_first l p s : class_is l p -> re_first (RStar (RSet false l)) s = Some (skipn (span p s) s, []).
Proof.
  intros H. rewrite first_plain by reflexivity. destruct (star_class space digit l p s H) as (_ & l' & -> & _). reflexivity.
Qed.
Lemma star_eq l p s pos : class_is l p -> (pos <= List.length s)%nat ->
  re_match space digit (RStar (RSet false l)) 0 s pos = Readme.re_star p s pos.
Proof.
  intros H Hp. rewrite (match0 _ s pos (span p (skipn pos s))); [|exact Hp|apply span_le|apply star_first; exact H].
  unfold Readme.re_star. reflexivity.
Qed.
Lemma plus_eq l p s pos : class_is l p -> (pos <= List.length s)%nat ->
  re_match space digit (RCat (RSet false l) (RStar (RSet false l))) 0 s pos = Readme.re_plus p s pos.
Proof.
  intros H Hp. unfold Readme.re_plus. rewrite run_span.
  pose proof (found_hd _ _ _ _ (plus_class space digit l p (skipn pos s) H)) as [F B].
  destruct (span p (skipn pos s)) as [|n] eqn:Q.
  - unfold re_match. rewrite first_plain, F by reflexivity. reflexivity.
  - apply match0; [exact Hp|apply B; reflexivity|]. rewrite first_plain, F by reflexivity. reflexivity.
Qed.
Lemma one_eq l p s pos : class_is l p -> (pos <= List.length s)%nat ->
  re_match space digit (RSet false l) 0 s pos = Readme.re_class p s pos.
Proof.
  intros H Hp. unfold Readme.re_class. destruct (skipn pos s) as [|c t] eqn:Q.
  - unfold re_match. rewrite Q. reflexivity.
  - destruct (p c) eqn:Pc.
    + rewrite (match0 _ s pos 1 Hp); [rewrite Q; reflexivity|rewrite Q; cbn; lia|].
      rewrite Q, first_plain, (class_one l p H), Pc by reflexivity. reflexivity.
    + unfold re_match. rewrite Q, first_plain, (class_one l p H), Pc by reflexivity. reflexivity.
Qed.
Lemma class_space : class_is [ISpace] space.
Proof. intros c. cbn. apply orb_false_r. Qed.
Lemma class_d : class_is [IDigit] digit.
Proof. intros c. cbn. apply orb_false_r. Qed.
Lemma spaces_eq s pos : (pos <= List.length s)%nat -> re_match space digit (pattern false "\s*") 0 s pos = Readme.re_star space s pos.
Proof. replace (pattern false _) with (RStar (RSet false [ISpace])) by (vm_compute; reflexivity). apply star_eq, class_space. Qed.
Lemma digits_eq s pos : (pos <= List.length s)%nat -> re_match space digit (pattern false "\d+") 0 s pos = Readme.re_plus digit s pos.
Proof. replace (pattern false _) with (RCat (RSet false [IDigit]) (RStar (RSet false [IDigit]))) by (vm_compute; reflexivity). apply plus_eq, class_d. Qed.
Lemma mul_eq s pos : (pos <= List.length s)%nat ->
  re_match space digit (pattern false "[*]") 0 s pos = Readme.re_class (fun c => N.eqb c 42) s pos.
Proof.
  replace (pattern false _) with (RSet false [IChar 42]) by (vm_compute; reflexivity). apply one_eq.
  intros c. cbn. apply orb_false_r.
Qed.
Lemma add_eq s pos : (pos <= List.length s)%nat ->
  re_match space digit (pattern false "[-+]") 0 s pos = Readme.re_class (fun c => N.eqb c 45 || N.eqb c 43) s pos.
Proof.
  replace (pattern false _) with (RSet false [IChar 45; IChar 43]) by (vm_compute; reflexivity). apply one_eq.
  intros c. cbn. rewrite orb_false_r. reflexivity.
Qed.
Lemma yows_eq s pos : (pos <= List.length s)%nat -> re_match space digit (pattern false "\s*") 0 s pos = Yamlish.re_yows space s pos.
Proof.
  intros Hp. rewrite spaces_eq by exact Hp. unfold Readme.re_star, Yamlish.re_yows, Yamlish.matched. rewrite run_span. reflexivity.
Qed.
(** one character of a class, then a run *)
Lemma head_run_eq l p l' p' s pos : class_is l p -> class_is l' p' -> (pos <= List.length s)%nat ->
  re_match space digit (RCat (RSet false l) (RStar (RSet false l'))) 0 s pos =
  match skipn pos s with c :: r => if p c then Yamlish.matched s pos (S (span p' r)) else None | [] => None end.
Proof.
  intros H H' Hp. destruct (skipn pos s) as [|c t] eqn:Q.
  - unfold re_match. rewrite Q. reflexivity.
  - assert (E : re_first (RCat (RSet false l) (RStar (RSet false l'))) (c :: t) = if p c then Some (skipn (span p' t) t, []) else None).
    { rewrite first_plain by reflexivity. rewrite rests_cat, (class_one l p H) by reflexivity. destruct (p c); [|reflexivity].
      cbn [flat_map]. rewrite app_nil_r. destruct (star_class space digit l' p' t H') as (_ & x & -> & _). reflexivity. }
    destruct (p c) eqn:Pc.
    + unfold Yamlish.matched. apply match0; [exact Hp|rewrite Q; cbn; pose proof (span_le p' t); lia|]. rewrite Q. exact E.
    + unfold re_match. rewrite Q, E. reflexivity.
Qed.
Lemma eol_eq s pos : (pos <= List.length s)%nat -> re_match space digit (pattern false "\n\s*") 0 s pos = Yamlish.re_eol space s pos.
Proof.
  intros Hp. replace (pattern false _) with (RCat (RSet false [IChar 10]) (RStar (RSet false [ISpace]))) by (vm_compute; reflexivity).
  rewrite (head_run_eq [IChar 10] (fun c => N.eqb c 10) [ISpace] space s pos); [reflexivity| |apply class_space|exact Hp].
  intros c. cbn. apply orb_false_r.
Qed.
Lemma ident_eq s pos : (pos <= List.length s)%nat ->
  re_match space digit (pattern false "[a-zA-Z_][a-zA-Z_0-9]*") 0 s pos = Yamlish.re_ident s pos.
Proof.
  intros Hp. replace (pattern false _) with (RCat (RSet false [IRange 97 122; IRange 65 90; IChar 95])
    (RStar (RSet false [IRange 97 122; IRange 65 90; IChar 95; IRange 48 57]))) by (vm_compute; reflexivity).
  rewrite (head_run_eq _ Yamlish.ystart _ Yamlish.ychar s pos); [reflexivity| | |exact Hp];
    intros c; cbn; unfold Yamlish.ychar, Yamlish.ystart, in_range; rewrite orb_false_r, ?orb_assoc;
    rewrite (orb_comm ((97 <=? c) && (c <=? 122))); reflexivity.
Qed.
Lemma class_blank : class_is [IChar 32; IChar 9] Yamlish.yblank.
Proof. intros c. cbn. rewrite orb_false_r. reflexivity. Qed.
Lemma colon_eq s pos : (pos <= List.length s)%nat ->
  re_match space digit (pattern false ("[ " ++ tab ++ "]*:[ " ++ tab ++ "]*")) 0 s pos = Yamlish.re_colon s pos.
Proof.
  intros Hp. set (B := RStar (RSet false [IChar 32; IChar 9])).
  replace (pattern false _) with (RCat B (RCat (lit 58) B)) by (vm_compute; reflexivity). unfold Yamlish.re_colon.
  set (n := span Yamlish.yblank (skipn pos s)).
  assert (E : rests (RCat B (RCat (lit 58) B)) (skipn pos s) = rests (RCat (lit 58) B) (skipn n (skipn pos s))).
  { rewrite (found_cat space digit B (RCat (lit 58) B) (skipn pos s) (Some n) Yamlish.yblank); [reflexivity|reflexivity|reflexivity| |].
    - apply (star_class space digit), class_blank.
    - intros t Ht. rewrite rests_cat, rests_lit by reflexivity. destruct t as [|c t]; [destruct Ht|]. cbn in Ht.
      destruct (N.eqb_spec c 58) as [->|]; [discriminate Ht|reflexivity]. }
  rewrite (rests_cat _ _ (lit 58)), rests_lit in E by reflexivity. pose proof (span_le Yamlish.yblank (skipn pos s)) as Bn. fold n in Bn.
  destruct (skipn n (skipn pos s)) as [|c t] eqn:T.
  { unfold re_match. rewrite first_plain, E by reflexivity. reflexivity. }
  destruct (N.eqb c 58).
  2:{ unfold re_match. rewrite first_plain, E by reflexivity. reflexivity. }
  cbn [flat_map] in E. rewrite app_nil_r in E. unfold Yamlish.matched.
  pose proof (skipn_length n (skipn pos s)) as X. rewrite T in X. cbn [List.length] in X. pose proof (span_le Yamlish.yblank t) as Bt.
  apply match0; [exact Hp|unfold char in *; lia|].
  rewrite first_plain, E by reflexivity. unfold B. destruct (star_class space digit _ _ t class_blank) as (_ & l' & -> & _).
  cbn [hd_error option_map]. rewrite <- skipn_plus, T. reflexivity.
Qed.
End Eq.
