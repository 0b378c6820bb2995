(** Property C62: JSON texts, from characters to values *)
From Verif Require Import Fuel Locations Json JsonSpec JsonText JsonTextSpec JsonProofs JsonTextProofs JsonTextMain PropsJson JsonTests.
From Coq Require Import Lia.
Local Open Scope N_scope.

(** Strings and integers are read right. *)
Theorem C62_strings : forall body s, is_body body s -> json_unescape body = s.
Proof. exact unescape_body. Qed.
Theorem C62_integers : forall x z, is_integer x z -> json_int x = z.
Proof. exact int_of_integer. Qed.

Section P.
Context {F : Type}.
Variable float_of : list char -> F.
Notation isj := (is_json json_unescape json_int float_of).

(** [loads] returns exactly the values of written JSON texts. *)
Theorem C62_text : forall src v,
  (exists n, loads float_of n src = Ret (Loads (Returns v))) <->
  exists toks, written src toks /\ isj toks v.
Proof.
  intros src v. unfold loads. rewrite C61_loads. split.
  - intros (n & toks & S & H). exists toks. split; [|exact H]. unfold split_tokens in S.
    apply lex_tiled in S as (toks' & S & T). injection S as <-. cbn [app] in *. apply tiled_written; [exact T|].
    apply (proj1 (json_kinds json_unescape json_int float_of) _ _ H).
  - intros (toks & W & H).
    pose proof (proj1 (json_adj json_unescape json_int float_of) _ _ H) as A.
    destruct (lex_written src src toks W true A 0%nat (Loc 0 0 0) [] eq_refl ltac:(lia)) as (n & toks' & L & S).
    exists n, toks'. split; [exact L|]. eapply (proj1 (json_same json_unescape json_int float_of)); eauto.
Qed.
(** It always returns or raises ParseError: it neither loops nor raises LexError. *)
Theorem C62_total : forall src, exists n u, loads float_of n src = Ret (Loads u).
Proof.
  intros src.
  assert (L : exists n toks, split_tokens n src json_spec = Ret (LexOk toks)).
  { unfold split_tokens.
    assert (K : forall k pos l acc, (List.length src - pos < k)%nat -> exists toks, lex_loop json_spec src k pos l acc = Ret (LexOk toks)).
    { induction k as [|k IH]; intros pos l acc Hk; [lia|].
      destruct (lex_loop json_spec src (S k) pos l acc) as [r|e|] eqn:Q.
      - pose proof Q as Q'. apply lex_tiled in Q' as (toks & -> & _). eauto.
      - exfalso. revert Q. clear. generalize (S k). intros m. revert pos l acc. induction m as [|m IHm]; intros pos l acc; cbn [lex_loop]; [discriminate|].
        destruct (Nat.ltb pos (List.length src)); [|discriminate]. destruct (json_spec src pos) as [[e' g]|]; [apply IHm|discriminate].
      - exfalso. cbn [lex_loop] in Q. destruct (Nat.ltb_spec pos (List.length src)) as [Hp|Hp]; [|discriminate].
        rewrite spec_shift in Q. destruct (json_spec (skipn pos src) 0%nat) as [[m g]|] eqn:S; [|discriminate].
        apply spec_sound in S as [L _].
        destruct (IH (pos + m)%nat (lex_end_loc src pos (pos + m) l) (match g with Some (kind, value) =>
          acc ++ [Token kind value l (lex_end_loc src pos (pos + m) l)] | None => acc end)) as [toks H]; [lia|].
        cbv zeta in Q. congruence. }
    exists (S (List.length src)). apply K. lia. }
  destruct L as (n & toks & S).
  destruct (C61_decides json_unescape json_int float_of toks false) as (n' & r & H & _).
  exists (Nat.max n n'), (unwrap r false). unfold loads, json_loads.
  assert (S' : split_tokens (Nat.max n n') src json_spec = Ret (LexOk toks)).
  { eapply lex_loop_mono; [|exact S]. lia. }
  rewrite S'. cbn [obind].
  assert (H' : lexer_parse (json_E json_unescape json_int float_of) (Nat.max n n') json_parser toks false = Ret r).
  { eapply (parse_mono _ _ _ n'); [lia|exact H]. }
  rewrite H'. reflexivity.
Qed.
(** The result does not depend on white space between tokens. *)
Theorem C62_white_space : forall src src' toks v,
  written src toks -> written src' toks -> isj toks v ->
  (exists n, loads float_of n src = Ret (Loads (Returns v))) /\
  (exists n, loads float_of n src' = Ret (Loads (Returns v))).
Proof. intros src src' toks v W W' H. split; apply C62_text; eauto. Qed.

(** ** The values *)
Lemma spelling_string t x : spelling t x -> is_kind "string" t -> good_string (json_unescape (tk_value t)).
Proof.
  unfold is_kind. intros [a Ha [H1 H2]|Hk Hv|Hk Hv|Hk Hv|z Hk Hv|Hk Hv|s Hk Hv Hn] K; unfold is_kind in *.
  { rewrite H1 in K. discriminate. }
  1-5: rewrite Hk in K; discriminate.
  rewrite (unescape_body _ _ Hv). split; [exact Hn|]. clear - Hv.
  assert (X : forall c n, hexvalue c n -> n <= 15).
  { intros c n. unfold hexvalue, digit. lia. }
  induction Hv as [|c w s H1 H2 H3 _ IH|e c w s He _ IH|a b c d na nb nc nd w s Ha Hb Hc Hd _ IH]; constructor; auto.
  - lia.
  - destruct He; lia.
  - apply X in Ha, Hb, Hc, Hd. lia.
Qed.
Lemma spelling_float t x : spelling t x -> is_kind "float" t -> is_floating (tk_value t).
Proof.
  unfold is_kind. intros [a Ha [H1 H2]|Hk Hv|Hk Hv|Hk Hv|z Hk Hv|Hk Hv|s Hk Hv Hn] K; unfold is_kind in *; auto.
  { rewrite H1 in K. discriminate. }
  all: rewrite Hk in K; discriminate.
Qed.
Definition spellable (t : token) : Prop := exists x, spelling t x.
Lemma written_spellable s toks : written s toks -> Forall spellable toks.
Proof. induction 1; constructor; auto. eexists; eauto. Qed.
Lemma spellable_written toks : Forall spellable toks -> exists s, written s toks.
Proof.
  induction 1 as [|t toks [x Hx] _ [s Hs]]; [exists []; apply wr_end; constructor|].
  exists ([] ++ x ++ s). apply wr_token; auto.
Qed.
Lemma json_loadable :
  (forall w v, isj w v -> Forall spellable w -> loadable float_of v) /\
  (forall w vs, elements json_unescape json_int float_of w vs -> Forall spellable w -> Forall (loadable float_of) vs) /\
  (forall w kvs, members json_unescape json_int float_of w kvs -> Forall spellable w ->
     Forall (fun kv => good_string (fst kv) /\ loadable float_of (snd kv)) kvs).
Proof.
  apply (json_mutind F json_unescape json_int float_of).
  - intros t v H HF. inversion HF as [|? ? [x Hx] _]; subst. destruct H; try constructor.
    + eapply spelling_string; eauto.
    + eapply spelling_float; eauto.
  - intros. repeat constructor.
  - intros t w vs t' _ _ IH _ HF. constructor. apply IH. inversion HF; subst.
    match goal with H : Forall _ (_ ++ _) |- _ => apply Forall_app in H; apply H end.
  - intros. constructor; constructor.
  - intros t w kvs d t' _ _ IH _ Hd HF. inversion HF as [|? ? _ HF']; subst. apply Forall_app in HF' as [HF' _].
    specialize (IH HF'). pose proof (nodup_keys _ _ _ Hd) as N. destruct Hd as [_ Hd].
    assert (I : forall kv, In kv d -> good_string (fst kv) /\ loadable float_of (snd kv)).
    { intros [k v] Hi. apply Hd in Hi as (b & a & -> & _). rewrite Forall_forall in IH. apply IH.
      apply in_or_app. right. left. reflexivity. }
    constructor; [exact N| |]; apply Forall_forall; intros y Hy; apply in_map_iff in Hy as (kv & <- & Hy); apply I; exact Hy.
  - intros w v _ IH HF. constructor; auto.
  - intros w v c w' vs _ IH _ _ IH' HF. apply Forall_app in HF as [H1 H2]. inversion H2; subst. constructor; auto.
  - intros k c w v H1 _ _ IH HF. inversion HF as [|? ? [x Hx] HF']; subst. inversion HF'; subst.
    constructor; [|constructor]. split; [eapply spelling_string; eauto|apply IH; auto].
  - intros k c w v c' w' kvs H1 _ _ IH _ _ IH' HF. inversion HF as [|? ? [x Hx] HF']; subst. inversion HF' as [|? ? _ HF'']; subst.
    apply Forall_app in HF'' as [Q1 Q2]. inversion Q2; subst.
    constructor; [|auto]. split; [eapply spelling_string; eauto|apply IH; auto].
Qed.

Lemma hexdigit_of n : n < 16 -> exists c, hexvalue c n.
Proof.
  intros H. destruct (N.lt_ge_cases n 10) as [L|L].
  - exists (48 + n). left. unfold digit. lia.
  - exists (55 + n). right. lia.
Qed.
Lemma body_of s : Forall (fun c => c <= 1114111) s -> exists w, is_body w s.
Proof.
  induction 1 as [|c s Hc _ [w IH]]; [exists []; constructor|].
  destruct (N.eq_dec c 34) as [->|H1]; [exists (92 :: 34 :: w); apply bo_escape; [constructor|auto]|].
  destruct (N.eq_dec c 92) as [->|H2]; [exists (92 :: 92 :: w); apply bo_escape; [constructor|auto]|].
  destruct (N.lt_ge_cases c 32) as [L|L]; [|exists (c :: w); apply bo_char; auto; lia].
  destruct (hexdigit_of 0) as [z Hz]; [lia|].
  destruct (hexdigit_of (c / 16)) as [a Ha]; [apply N.div_lt_upper_bound; lia|].
  destruct (hexdigit_of (c mod 16)) as [b Hb]; [apply N.mod_lt; lia|].
  exists (92 :: 117 :: z :: z :: a :: b :: w).
  replace (c :: s) with (0 * 4096 + 0 * 256 + c / 16 * 16 + c mod 16 :: s).
  - apply bo_unicode; auto.
  - f_equal. pose proof (N.div_mod c 16). lia.
Qed.
Lemma decimal_of n : exists ds, plain_decimal ds n /\ (n <> 0 -> exists d ds', ds = d :: ds' /\ d <> 48).
Proof.
  induction n as [n IH] using (well_founded_induction N.lt_wf_0). destruct (N.lt_ge_cases n 10) as [L|L].
  - assert (D : decimal [48 + n] n) by (replace n with (48 + n - 48) at 2 by lia; apply de_one; unfold digit; lia).
    exists [48 + n]. split.
    + split; [exact D|]. destruct (N.eq_dec n 0) as [->|H]; [left; reflexivity|right]. exists (48 + n), []. split; [auto|lia].
    + intros H. exists (48 + n), []. split; [auto|lia].
  - destruct (IH (n / 10)) as (ds & [H _] & H'); [apply N.div_lt; lia|].
    destruct H' as (d & ds' & -> & Hd); [intros Q; apply N.div_small_iff in Q; lia|].
    assert (D : decimal ((d :: ds') ++ [48 + n mod 10]) n).
    { pose proof (N.div_mod n 10 ltac:(lia)) as Q. pose proof (N.mod_lt n 10 ltac:(lia)) as Q'.
      assert (X : n = 10 * (n / 10) + (48 + n mod 10 - 48)) by (revert Q Q'; generalize (n / 10) (n mod 10); intros; lia).
      replace (decimal ((d :: ds') ++ [48 + n mod 10]) n) with (decimal ((d :: ds') ++ [48 + n mod 10]) (10 * (n / 10) + (48 + n mod 10 - 48))) by (rewrite <- X; reflexivity).
      apply de_more; [exact H|]. unfold digit. lia. }
    exists ((d :: ds') ++ [48 + n mod 10]). cbn [app]. split; [split; [exact D|right; eauto]|eauto].
Qed.
Lemma integer_of z : exists x, is_integer x z.
Proof.
  destruct (decimal_of (Z.to_N (Z.abs z))) as (ds & H & _). destruct (Z.le_gt_cases 0 z) as [L|L].
  - exists ds. replace z with (Z.of_N (Z.to_N (Z.abs z))) by lia. apply int_plus. exact H.
  - exists (45 :: ds). replace z with (- Z.of_N (Z.to_N (Z.abs z)))%Z by lia. apply int_minus. exact H.
Qed.
Definition tk (k : string) (x : list char) : token := Token k x loc0 loc0.
Definition pt (a : ascii) : token := Token "punct" [N_of_ascii a] loc0 loc0.
Lemma pt_spell a : In a ["{"; "}"; "["; "]"; ":"; ","]%char -> spellable (pt a).
Proof. intros H. exists [N_of_ascii a]. apply sp_punct; [exact H|split; reflexivity]. Qed.
Lemma pt_is a : is_punct a (pt a).
Proof. split; reflexivity. Qed.
Lemma is_dict_self X (d : list (list char * X)) : NoDup (map fst d) -> is_dict d d.
Proof.
  intros H. split.
  - rewrite nodup_fixed_point by (apply NoDup_rev; exact H). rewrite rev_involutive. reflexivity.
  - intros k v. split.
    + intros Hi. apply in_split in Hi as (b & a & ->). exists b, a. split; auto.
      rewrite map_app in H. cbn in H. apply NoDup_remove_2 in H. intros Hk. apply H. apply in_or_app. right. exact Hk.
    + intros (b & a & -> & _). apply in_or_app. right. left. reflexivity.
Qed.
Lemma string_token s : good_string s -> exists t, is_kind "string" t /\ spellable t /\ json_unescape (tk_value t) = s.
Proof.
  intros [Hn H]. destruct (body_of s H) as [w Hw]. exists (tk "string" w). split; [reflexivity|].
  split; [exists (34 :: w ++ [34]); apply (sp_string (tk "string" w) s); auto; reflexivity|].
  apply (unescape_body w s Hw).
Qed.
Fixpoint loadable_json v (H : loadable float_of v) {struct H} : exists toks, isj toks v /\ Forall spellable toks.
Proof.
  destruct H as [s Hs|z|x Hx|b| |vs Hv|d Hn Hk Hv].
  - destruct (string_token s Hs) as (t & H1 & H2 & <-). exists [t]. split; [apply json_scalar, is_str; exact H1|repeat constructor; exact H2].
  - destruct (integer_of z) as [x Hx]. exists [tk "integer" x]. split.
    + replace z with (json_int x) by (apply int_of_integer; exact Hx). apply json_scalar, (is_int _ _ _ (tk "integer" x)). reflexivity.
    + repeat constructor. exists x. apply (sp_integer (tk "integer" x) z); [reflexivity|exact Hx].
  - exists [tk "float" x]. split; [apply json_scalar, (is_float _ _ _ (tk "float" x)); reflexivity|].
    repeat constructor. exists x. apply (sp_float (tk "float" x)); [reflexivity|exact Hx].
  - destruct b.
    + exists [tk "bool" (ascii_chars "true")]. split; [apply json_scalar, is_true; reflexivity|].
      repeat constructor. eexists. apply sp_true; reflexivity.
    + exists [tk "bool" (ascii_chars "false")]. split; [apply json_scalar, is_false; [reflexivity|discriminate]|].
      repeat constructor. eexists. apply sp_false; reflexivity.
  - exists [tk "null" (ascii_chars "null")]. split; [apply json_scalar, is_null; reflexivity|].
    repeat constructor. eexists. apply sp_null; reflexivity.
  - assert (L : vs = [] \/ exists w, elements json_unescape json_int float_of w vs /\ Forall spellable w).
    { induction Hv as [|v vs H Hv IH]; [left; reflexivity|]. right.
      destruct (loadable_json v H) as (w & H1 & H2). destruct IH as [->|(w' & H3 & H4)].
      - exists w. split; [apply el_one; exact H1|exact H2].
      - exists (w ++ pt "," :: w'). split; [apply el_more; auto; apply pt_is|].
        apply Forall_app. split; [exact H2|]. constructor; [apply pt_spell; cbn; tauto|exact H4]. }
    destruct L as [->|(w & H1 & H2)].
    + exists [pt "["; pt "]"]. split; [apply json_list_empty; apply pt_is|]. repeat constructor; apply pt_spell; cbn; tauto.
    + exists (pt "[" :: w ++ [pt "]"]). split; [apply json_list_some; auto; apply pt_is|].
      constructor; [apply pt_spell; cbn; tauto|]. apply Forall_app. split; [exact H2|]. repeat constructor. apply pt_spell; cbn; tauto.
  - assert (L : d = [] \/ exists w, members json_unescape json_int float_of w d /\ Forall spellable w).
    { clear Hn.
      assert (V : Forall (fun v => exists toks, isj toks v /\ Forall spellable toks) (map snd d)).
      { induction Hv as [|v vs H Hv IH]; constructor; [apply loadable_json; exact H|exact IH]. }
      clear Hv. induction d as [|[k v] d IH]; [left; reflexivity|]. right. cbn [map fst snd] in Hk, V.
      inversion Hk as [|? ? Gk Gd]; subst. inversion V as [|? ? (w & H1 & H2) Vd]; subst.
      destruct (string_token k Gk) as (t & T1 & T2 & <-). destruct (IH Gd Vd) as [->|(w' & H3 & H4)].
      - exists (t :: pt ":" :: w). split; [apply me_one; auto; apply pt_is|].
        constructor; [exact T2|]. constructor; [apply pt_spell; cbn; tauto|exact H2].
      - exists (t :: pt ":" :: w ++ pt "," :: w'). split; [apply me_more; auto; apply pt_is|].
        constructor; [exact T2|]. constructor; [apply pt_spell; cbn; tauto|].
        apply Forall_app. split; [exact H2|]. constructor; [apply pt_spell; cbn; tauto|exact H4]. }
    destruct L as [->|(w & H1 & H2)].
    + exists [pt "{"; pt "}"]. split; [apply json_dict_empty; apply pt_is|]. repeat constructor; apply pt_spell; cbn; tauto.
    + exists (pt "{" :: w ++ [pt "}"]). split; [eapply json_dict_some; eauto; [apply pt_is|apply pt_is|apply is_dict_self; exact Hn]|].
      constructor; [apply pt_spell; cbn; tauto|]. apply Forall_app. split; [exact H2|]. repeat constructor. apply pt_spell; cbn; tauto.
Qed.
(** The values that [loads] returns, over all texts. *)
Theorem C62_values : forall v,
  (exists src n, loads float_of n src = Ret (Loads (Returns v))) <-> loadable float_of v.
Proof.
  intros v. split.
  - intros (src & H). apply C62_text in H as (toks & W & H).
    apply (proj1 json_loadable _ _ H). eapply written_spellable; eauto.
  - intros H. destruct (loadable_json v H) as (toks & H1 & H2). destruct (spellable_written toks H2) as [s W].
    exists s. apply C62_text. eauto.
Qed.
End P.

(** A concrete text: white space, a repeated key, escapes and a negative number. *)
Definition c62_src : list char := ascii_chars "{""k"" : [1,-20] ,""\u0041\n"":true,""k"":null }".
Definition c62_value : json (list char) := JDict [(ascii_chars "k", JNull); ([65; 10], JBool true)].
Example C62_case : loads (fun x => x) 200 c62_src = Ret (Loads (Returns c62_value)).
Proof. vm_compute. reflexivity. Qed.
Example C62_case_written : exists toks, written c62_src toks /\ is_json json_unescape json_int (fun x => x) toks c62_value.
Proof. apply C62_text. exists 200%nat. exact C62_case. Qed.
Example C62_case_loadable : loadable (fun x : list char => x) c62_value.
Proof. apply C62_values. exists c62_src, 200%nat. exact C62_case. Qed.
(** A quirk of the token pattern: no text has an empty string in its value,
    and the text made of two quotes is refused. *)
Theorem C62_no_empty_string : forall src n,
  @loads (list char) (fun x => x) n src <> Ret (Loads (Returns (JStr []))).
Proof.
  intros src n H. assert (L : loadable (fun x : list char => x) (JStr [])) by (apply C62_values; eauto).
  inversion L as [s [H0 _] E| | | | | |]; subst. congruence.
Qed.
