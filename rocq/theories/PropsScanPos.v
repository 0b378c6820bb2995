(** Property C66, positions: whatever is wrong with a text, what is before the
    reported position is the beginning of a text without errors. *)
From Verif Require Import Fuel Api ApiSpec Locations Fuse PropsFuse PropsLL
  Json JsonSpec JsonProofs JsonText JsonTextSpec JsonTextProofs JsonTextMain JsonLL PropsJson PropsJsonText JsonScan JsonScanProofs PropsScan.
From Coq Require Import Lia.

(** *** Other spellings of the same kinds of tokens *)
Definition kinded (t t' : token) : Prop := tk_kind t' = tk_kind t /\ (tk_kind t = "punct"%string -> tk_value t' = tk_value t).
Lemma kinded_refl t : kinded t t.
Proof. split; auto. Qed.
Lemma kinded_punct a t t' : kinded t t' -> is_punct a t -> is_punct a t'.
Proof. intros [H1 H2] [H3 H4]. split; [congruence|]. rewrite (H2 H3). exact H4. Qed.
Lemma kinded_kind k t t' : kinded t t' -> is_kind k t -> is_kind k t'.
Proof. intros [H _] K. unfold is_kind in *. congruence. Qed.

Section J.
Context {F : Type}.
Variable unescape : list char -> list char.
Variable int_of : list char -> Z.
Variable float_of : list char -> F.
Notation isj := (is_json unescape int_of float_of).
Notation els := (elements unescape int_of float_of).
Notation mems := (members unescape int_of float_of).

Ltac f2 := repeat match goal with
  | H : Forall2 _ (_ :: _) _ |- _ => apply F2_cons_l in H; destruct H as (? & ? & -> & ? & H)
  | H : Forall2 _ (_ ++ _) _ |- _ => apply F2_app_l in H; destruct H as (? & ? & -> & ? & H)
  | H : Forall2 _ [] _ |- _ => apply F2_nil_l in H; subst
  end.
Lemma json_kinded :
  (forall w v, isj w v -> forall w', Forall2 kinded w w' -> exists v', isj w' v') /\
  (forall w vs, els w vs -> forall w', Forall2 kinded w w' -> exists vs', els w' vs') /\
  (forall w kvs, mems w kvs -> forall w', Forall2 kinded w w' -> exists kvs', mems w' kvs').
Proof using.
  apply (json_mutind F unescape int_of float_of).
  - intros t v H w' HS. f2. match goal with H : kinded t ?y |- _ => rename y into t'; rename H into K end.
    destruct H as [H|H|H|H Hv|H Hv|H]; apply (kinded_kind _ _ _ K) in H.
    + eexists. apply json_scalar, is_str. exact H.
    + eexists. apply json_scalar, is_int. exact H.
    + eexists. apply json_scalar, is_float. exact H.
    + destruct (list_eq_dec N.eq_dec (tk_value t') (ascii_chars "true")); eexists; apply json_scalar; [apply is_true|apply is_false]; auto.
    + destruct (list_eq_dec N.eq_dec (tk_value t') (ascii_chars "true")); eexists; apply json_scalar; [apply is_true|apply is_false]; auto.
    + eexists. apply json_scalar, is_null. exact H.
  - intros t t' H1 H2 w' HS. f2. eexists. apply json_list_empty; eapply kinded_punct; eauto.
  - intros t w vs t' H1 _ IH H2 w' HS. f2. match goal with H : Forall2 kinded w _ |- _ => apply IH in H as [vs' H] end.
    eexists. apply json_list_some; eauto using kinded_punct.
  - intros t t' H1 H2 w' HS. f2. eexists. apply json_dict_empty; eapply kinded_punct; eauto.
  - intros t w kvs d t' H1 _ IH H2 Hd w' HS. f2. match goal with H : Forall2 kinded w _ |- _ => apply IH in H as [kvs' H] end.
    eexists. eapply json_dict_some; eauto using kinded_punct. apply dict_of_is_dict.
  - intros w v _ IH w' HS. apply IH in HS as [v' H]. eexists. apply el_one; eauto.
  - intros w v c w1 vs _ IH Hc _ IH' w' HS. f2.
    match goal with H : Forall2 kinded w _ |- _ => apply IH in H as [v' K1] end.
    match goal with H : Forall2 kinded w1 _ |- _ => apply IH' in H as [vs' K2] end.
    eexists. apply el_more; eauto using kinded_punct.
  - intros k c w v H1 H2 _ IH w' HS. f2.
    match goal with H : Forall2 kinded w _ |- _ => apply IH in H as [v' K1] end.
    eexists. apply me_one; eauto using kinded_punct, kinded_kind.
  - intros k c w v c' w1 kvs H1 H2 _ IH H3 _ IH' w' HS. f2.
    match goal with H : Forall2 kinded w _ |- _ => apply IH in H as [v' K1] end.
    match goal with H : Forall2 kinded w1 _ |- _ => apply IH' in H as [vs' K2] end.
    eexists. apply me_more; eauto using kinded_punct, kinded_kind.
Qed.
Definition jtok (t : token) : Prop :=
  (exists a, In a ["{"; "}"; "["; "]"; ":"; ","]%char /\ is_punct a t) \/
  is_kind "string" t \/ is_kind "integer" t \/ is_kind "float" t \/ is_kind "bool" t \/ is_kind "null" t.
Lemma json_jtok :
  (forall w v, isj w v -> Forall jtok w) /\ (forall w vs, els w vs -> Forall jtok w) /\
  (forall w kvs, mems w kvs -> Forall jtok w).
Proof using.
  assert (P : forall a t, In a ["{"; "}"; "["; "]"; ":"; ","]%char -> is_punct a t -> jtok t) by (intros a t H K; left; eauto).
  assert (S : forall t, is_kind "string" t -> jtok t) by (intros t H; right; auto).
  apply (json_mutind F unescape int_of float_of); intros; rewrite ?app_comm_cons;
    repeat first [apply Forall_app; split | apply Forall_cons | apply Forall_nil]; eauto; try (eapply P; [|eassumption]; cbn; tauto).
  destruct H as [H|H|H|H _|H _|H]; right; auto 6.
Qed.
End J.

Lemma respell t : jtok t -> exists t', kinded t t' /\ spellable t'.
Proof.
  intros [(a & Ha & H)|[H|[H|[H|[H|H]]]]].
  - exists t. split; [apply kinded_refl|]. exists [N_of_ascii a]. apply sp_punct; auto.
  - destruct (string_token [97%N]) as (t' & K & S & _).
    + split; [discriminate|]. constructor; [unfold char; lia|constructor].
    + exists t'. split; [|exact S]. split; [unfold is_kind in *; congruence|]. unfold is_kind in *. congruence.
  - destruct (integer_of 1) as [x Hx]. exists (tk "integer" x). split; [split; [unfold is_kind in *; cbn; congruence|unfold is_kind in *; congruence]|].
    exists x. apply (sp_integer (tk "integer" x) 1); [reflexivity|exact Hx].
  - destruct (integer_of 1) as [x Hx].
    exists (tk "float" (x ++ [46; 49])%N). split; [split; [unfold is_kind in *; cbn; congruence|unfold is_kind in *; congruence]|].
    eexists. apply (sp_float (tk "float" (x ++ [46; 49])%N)); [reflexivity|]. cbn. eapply fl_frac; [exact Hx|]. apply (fr_intro [49%N]).
    eexists. apply de_one. unfold digit, char. lia.
  - exists (tk "bool" (ascii_chars "true")). split; [split; [unfold is_kind in *; cbn; congruence|unfold is_kind in *; congruence]|].
    eexists. apply sp_true; reflexivity.
  - exists (tk "null" (ascii_chars "null")). split; [split; [unfold is_kind in *; cbn; congruence|unfold is_kind in *; congruence]|].
    eexists. apply sp_null; reflexivity.
Qed.
Lemma respell_all w : Forall jtok w -> exists w', Forall2 kinded w w' /\ Forall spellable w'.
Proof.
  induction 1 as [|t w H _ (w' & H1 & H2)]; [exists []; auto|]. destruct (respell t H) as (t' & K1 & K2).
  exists (t' :: w'). auto.
Qed.
Lemma written_app s toks : written s toks -> forall s' toks', written s' toks' -> written (s ++ s') (toks ++ toks').
Proof.
  induction 1 as [w Hw|w t x rest toks Hw Hs _ IH]; intros s' toks' H'.
  - cbn [app]. destruct H' as [w' Hw'|w' t x rest toks' Hw' Hs' W].
    + apply wr_end. apply Forall_app. auto.
    + rewrite app_assoc. apply wr_token; auto. apply Forall_app. auto.
  - rewrite <- !app_assoc. cbn [app]. apply wr_token; auto.
Qed.
(** any beginning of a JSON text in tokens can be completed as a text *)
Lemma complete F (float_of : list char -> F) s a b v :
  written s a -> is_json json_unescape json_int float_of (a ++ b) v ->
  exists rest toks v', written (s ++ rest) toks /\ is_json json_unescape json_int float_of toks v'.
Proof.
  intros W H. pose proof (proj1 (json_jtok _ _ _) _ _ H) as J. apply Forall_app in J as [_ J].
  destruct (respell_all b J) as (b' & K & S). destruct (spellable_written _ S) as [rest R].
  destruct (proj1 (json_kinded _ _ _) _ _ H (a ++ b')) as [v' H'].
  { apply Forall2_app; [|exact K]. clear. induction a; constructor; auto using kinded_refl. }
  exists rest, (a ++ b'), v'. split; [apply written_app; assumption|exact H'].
Qed.

(** *** The tokens before a position *)
Lemma skip_white (src : list char) p : Forall white (firstn (span is_ws (skipn p src)) (skipn p src)).
Proof.
  generalize (skipn p src) as s. clear. induction s as [|c s IH]; cbn [span]; [constructor|].
  destruct (is_ws c) eqn:Q; cbn [firstn]; constructor; auto. apply is_ws_spec. exact Q.
Qed.
Lemma firstn_split A (l : list A) a b : a <= b -> firstn b l = firstn a l ++ firstn (b - a) (skipn a l).
Proof. intros H. replace b with (a + (b - a)) at 1 by lia. apply firstn_add. Qed.
Lemma laid_written src p toks : laid src p toks -> p <= List.length src -> forall k, k <= List.length toks ->
  Forall good_kind (firstn k toks) -> written (firstn (place src toks k - p) (skipn p src)) (firstn k toks).
Proof.
  induction 1 as [p H|p e t toks H1 H2 H3 H4 H5 HL IH]; intros Hp k Hk G.
  - cbn in Hk. assert (k = 0) by lia. subst. cbn [firstn]. apply wr_end.
    unfold place. cbn [nth_error]. rewrite <- H. unfold after_ws. rewrite Nat.add_comm, Nat.add_sub. apply skip_white.
  - destruct k as [|k].
    + cbn [firstn]. apply wr_end. unfold place. cbn [nth_error]. rewrite H4. cbn [loc_pos true_loc]. rewrite Nat2Z.id.
      unfold after_ws. rewrite Nat.add_comm, Nat.add_sub. apply skip_white.
    + cbn [firstn] in *. inversion G as [|? ? G1 G2]; subst. cbn [List.length] in Hk.
      change (place src (t :: toks) (S k)) with (place src toks k).
      specialize (IH ltac:(lia) k ltac:(lia) G2). pose proof (after_ws_le src p Hp) as A1.
      assert (A2 : e <= place src toks k).
      { destruct HL as [e He|e e' t' toks' K1 K2 K3 K4 K5 HL'].
        - unfold place. destruct k; cbn [nth_error]; lia.
        - destruct (Nat.eq_dec k 0) as [->|Hk0].
          + unfold place. cbn [nth_error]. rewrite K4. cbn [loc_pos true_loc]. rewrite Nat2Z.id. pose proof (after_ws_le src e). lia.
          + pose proof (laid_places src e (t' :: toks') (laid_tok src e e' t' toks' K1 K2 K3 K4 K5 HL')) as [PL _].
            specialize (PL 0 k ltac:(cbn in *; lia)). unfold place in PL at 1. cbn [nth_error] in PL. rewrite K4 in PL.
            cbn [loc_pos true_loc] in PL. rewrite Nat2Z.id in PL. pose proof (after_ws_le src e). lia. }
      rewrite (firstn_split _ _ (after_ws src p - p)) by lia. rewrite (firstn_split _ (skipn (after_ws src p - p) _) (e - after_ws src p)) by lia.
      rewrite !skipn_skipn_add. replace (p + (after_ws src p - p)) with (after_ws src p) by lia.
      replace (after_ws src p + (e - after_ws src p)) with e by lia.
      replace (place src toks k - p - (after_ws src p - p) - (e - after_ws src p)) with (place src toks k - e) by lia.
      apply wr_token; [|  |exact IH].
      * unfold after_ws. replace (p + span is_ws (skipn p src) - p) with (span is_ws (skipn p src)) by lia. apply skip_white.
      * rewrite spec_shift in H2. destruct (json_spec (skipn (after_ws src p) src) 0) as [[n g]|] eqn:S; [|discriminate].
        injection H2 as E1 E2. apply spec_sound in S as [_ S]. subst g. destruct S as [S|S]; [contradiction|].
        specialize (S (tk_start t) (tk_end t)). replace (e - after_ws src p) with n by lia. destruct t; exact S.
Qed.
Lemma tokens_end_after src p toks : laid src p toks -> p <= List.length src ->
  exists q, p <= q <= List.length src /\ after_ws src q = List.length src /\ (forall k, k < List.length toks -> place src toks k < q) /\
    match rev toks with t :: _ => tk_end t = true_loc src q | [] => q = p end.
Proof.
  induction 1 as [p H|p e t toks H1 H2 H3 H4 H5 HL IH]; intros Hp.
  - exists p. split; [lia|]. split; [exact H|]. split; [intros k Hk; cbn in Hk; lia|reflexivity].
  - destruct IH as (q & Q1 & Q2 & Q3 & Q4); [lia|]. exists q. pose proof (after_ws_le src p Hp). split; [lia|]. split; [exact Q2|]. split.
    + intros [|k] Hk; [|apply Q3; cbn in Hk; lia]. unfold place. cbn [nth_error]. rewrite H4. cbn. lia.
    + cbn [rev]. destruct (rev toks) as [|t' l]; cbn [app]; [subst q; exact H5|exact Q4].
Qed.
(** where the parser with a lexer reports *)
Lemma reported src toks p : laid src 0 toks -> p <= List.length toks ->
  exists q, q <= List.length src /\ loc_from_stream toks p = true_loc src q /\
    (p < List.length toks -> q = place src toks p) /\
    (p = List.length toks -> Forall white (skipn q src) /\ forall k, k < p -> place src toks k < q).
Proof.
  intros HL Hp. destruct (Nat.lt_ge_cases p (List.length toks)) as [Hp'|Hp'].
  - exists (place src toks p). split; [apply (place_le _ _ _ HL)|]. split; [apply at_place; auto|]. split; [auto|lia].
  - assert (p = List.length toks) by lia. subst p. destruct (tokens_end_after _ _ _ HL) as (q & Hq & W & K & R); [lia|].
    exists q. split; [lia|]. split; [|split; [lia|]].
    + unfold loc_from_stream. rewrite (proj2 (nth_error_None toks _) Hp').
      destruct (rev toks) as [|t l] eqn:Rv; [|exact R]. assert (toks = []) by (rewrite <- (rev_involutive toks), Rv; reflexivity). subst toks.
      subst. rewrite true_loc_0. reflexivity.
    + intros _. split; [apply white_rest; [lia|exact W]|exact K].
Qed.
Lemma true_loc_inj src p q : true_loc src p = true_loc src q -> p = q.
Proof. intros H. apply (f_equal loc_pos) in H. cbn in H. lia. Qed.
Lemma stream_inj src toks p q : laid src 0 toks -> p <= List.length toks -> q <= List.length toks ->
  loc_from_stream toks p = loc_from_stream toks q -> p = q.
Proof.
  assert (W : forall p q, laid src 0 toks -> p < q <= List.length toks -> loc_from_stream toks p <> loc_from_stream toks q).
  { clear. intros p q HL Hpq H. destruct (reported src toks p HL) as (a & _ & Ha & A1 & _); [lia|].
    destruct (reported src toks q HL) as (b & _ & Hb & B1 & B2); [lia|]. rewrite Ha, Hb in H. apply true_loc_inj in H. subst b.
    rewrite A1 in * by lia. destruct (Nat.lt_ge_cases q (List.length toks)) as [Hq|Hq].
    - specialize (B1 Hq). pose proof (proj1 (laid_places _ _ _ HL) p q Hpq). lia.
    - destruct B2 as [_ B2]; [lia|]. specialize (B2 p). lia. }
  intros HL Hp Hq H. destruct (Nat.lt_trichotomy p q) as [L|[L|L]]; [|exact L|].
  - exfalso. exact (W p q HL ltac:(lia) H).
  - exfalso. exact (W q p HL ltac:(lia) (eq_sym H)).
Qed.

(** *** Theorems *)
Section V.
Context {F : Type}.
Variable float_of : list char -> F.
Notation E := (json_E json_unescape json_int float_of).
Notation E' := (scan_E json_unescape json_int float_of).

Lemma viable src n u : loads float_of n src = Ret (Loads (Raises u)) ->
  exists toks p e, laid src 0 toks /\ u = [e] /\ p <= List.length toks /\ ei_loc e = loc_from_stream toks p /\
    (exists k r, lexer_parse E k json_parser toks false = Ret r /\ unwrap r false = Raises u) /\
    exists rest m v, loads float_of m (firstn (place src toks p) src ++ rest) = Ret (Loads (Returns v)).
Proof using.
  intros H. pose proof H as H0. unfold loads, json_loads in H0.
  destruct (split_tokens n src json_spec) as [[toks|l]|e|] eqn:S; cbn in H0; try discriminate.
  destruct (lexes src) as (n0 & toks' & S0 & HL). pose proof (split_det _ _ _ _ _ S0 S) as [= ->].
  destruct (lexer_parse E n json_parser toks false) as [r|e|] eqn:Q; cbn in H0; try discriminate. injection H0 as Hu.
  destruct (C61_position json_unescape json_int float_of toks n r false u Q Hu) as (p & e & -> & L & Hp & (rest & v & V) & _).
  exists toks, p, e. split; [exact HL|]. split; [reflexivity|]. split; [exact Hp|]. split; [exact L|]. split; [eauto|].
  pose proof (laid_written src 0 toks HL ltac:(lia) p Hp) as W. rewrite Nat.sub_0_r in W. cbn [skipn] in W.
  destruct (complete F float_of _ _ _ _ (W ltac:(pose proof (proj1 (json_kinds _ _ _) _ _ V) as G; apply Forall_app in G as [G _]; exact G)) V)
    as (rs & tk' & v' & W' & J). exists rs. destruct (proj2 (C62_text float_of (firstn (place src toks p) src ++ rs) v')) as [m M]; [eauto|]. eauto.
Qed.
(** What is before the error is the beginning of a text that [loads] accepts:
    for the parser with a lexer, *)
Theorem C66_viable_loads : forall src n errs, loads float_of n src = Ret (Loads (Raises errs)) ->
  exists e q, errs = [e] /\ q <= List.length src /\ ei_loc e = true_loc src q /\
    exists rest m v, loads float_of m (firstn q src ++ rest) = Ret (Loads (Returns v)).
Proof using.
  intros src n errs H. destruct (viable src n errs H) as (toks & p & e & HL & -> & Hp & L & _ & rest & m & v & V).
  destruct (reported src toks p HL Hp) as (q & Hq & Lq & A1 & A2). exists e, q. split; [reflexivity|]. split; [exact Hq|].
  split; [congruence|]. destruct (Nat.lt_ge_cases p (List.length toks)) as [Hp'|Hp'].
  - rewrite (A1 Hp'). eauto.
  - exists (skipn q src ++ rest), m, v. rewrite app_assoc, firstn_skipn.
    assert (P : place src toks p = List.length src) by (unfold place; rewrite (proj2 (nth_error_None toks p) Hp'); reflexivity).
    rewrite P, firstn_all in V. exact V.
Qed.
(** ... and for the one without *)
Theorem C66_viable : forall src n errs, sloads float_of n src = Ret (Raises errs) ->
  exists e q, errs = [e] /\ q <= List.length src /\ ei_loc e = true_loc src q /\
    exists rest m v, sloads float_of m (firstn q src ++ rest) = Ret (Returns v).
Proof using.
  intros src n errs H. destruct (C66_same_answer float_of src) as (u & u' & [k K] & _ & _).
  pose proof (C66_related float_of _ _ _ _ _ K H) as R. destruct u as [x|u]; [contradiction|].
  destruct (viable src k u K) as (toks & p & e0 & HL & -> & Hp & L & (k' & r & Q & Hu) & rest & m & v & V).
  destruct (proj1 (proj2 (scan_same float_of src toks HL)) k' r [e0] Q Hu) as (n' & r' & e1 & e' & p' & Q' & Hu' & [= <-] & Hp' & L1 & L2 & _).
  rewrite L in L1. apply (stream_inj src toks) in L1; auto. subst p'.
  assert (E : errs = [e']).
  { assert (S : sloads float_of n' src = Ret (Raises [e'])) by (unfold sloads, scan_loads, scannerless_parse; rewrite Q'; cbn; congruence).
    apply (sloads_mono float_of _ (Nat.max n n')) in H; [|lia]. apply (sloads_mono float_of _ (Nat.max n n')) in S; [|lia]. congruence. }
  exists e', (place src toks p). split; [exact E|]. split; [apply (place_le _ _ _ HL)|]. split; [exact L2|].
  exists rest. destruct (proj2 (C66_text float_of (firstn (place src toks p) src ++ rest) v)) as [m' M].
  - apply C62_text. eauto.
  - eauto.
Qed.
End V.
Print Assumptions C66_viable_loads.
Print Assumptions C66_viable.

(** Concrete cases: a text with white space, a nested list and an object *)
Definition c66_src : list char := ascii_chars " {""k"" : [1,-20] ,""b"":true } ".
Definition c66_value : json (list char) := JDict [(ascii_chars "k", JList [JInt 1; JInt (-20)]); (ascii_chars "b", JBool true)].
Example C66_case : sloads (fun x => x) 200 c66_src = Ret (Returns c66_value) /\ loads (fun x => x) 200 c66_src = Ret (Loads (Returns c66_value)).
Proof. vm_compute. split; reflexivity. Qed.
(** ... one with an error inside, and one at the end, after white space *)
Definition locs (u : unwrapped (json (list char))) : list (loc * list string) :=
  match u with Returns _ => [] | Raises l => map (fun e => (ei_loc e, ei_expected e)) l end.
Definition answers (x : string) : list (loc * list string) * list (loc * list string) :=
  match loads (fun x => x) 200 (ascii_chars x), sloads (fun x => x) 200 (ascii_chars x) with
  | Ret (Loads u), Ret u' => (locs u, locs u') | _, _ => ([], []) end.
Example C66_case_error : answers "[1, @ ]" = ([(Loc 4 0 4, ["value"])], [(Loc 4 0 4, ["value"])])%string.
Proof. vm_compute. reflexivity. Qed.
Example C66_case_end : answers "[1  " = ([(Loc 2 0 2, ["','"; "']'"])], [(Loc 4 0 4, ["','"; "']'"])])%string.
Proof. vm_compute. reflexivity. Qed.
