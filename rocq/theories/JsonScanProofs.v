(** The scannerless JSON parser against the one with a lexer *)
From Verif Require Import Fuel Fuse DiagProofs PropsPeg PropsDiag JsonLL Examples Locations RunLemmas ApiSpec ApiProofs Json JsonSpec JsonText JsonTextSpec JsonTextProofs JsonTextMain JsonScan.
From Coq Require Import Lia.

(** *** Where tokens are *)
Lemma span_skip (f : char -> bool) s : span f (skipn (span f s) s) = 0.
Proof. induction s as [|c s IH]; [reflexivity|]. cbn [span]. destruct (f c) eqn:Q; cbn [skipn]; [exact IH|]. cbn [span]. rewrite Q. reflexivity. Qed.
Lemma span_le (f : char -> bool) s : span f s <= List.length s.
Proof. induction s as [|c s IH]; cbn; [lia|]. destruct (f c); cbn; lia. Qed.
Definition after_ws (src : list char) (p : nat) : nat := p + span is_ws (skipn p src).
Lemma after_ws_le src p : p <= List.length src -> p <= after_ws src p <= List.length src.
Proof. intros H. unfold after_ws. pose proof (span_le is_ws (skipn p src)) as L. rewrite skipn_length in L. lia. Qed.
Lemma after_ws_idem src p : after_ws src (after_ws src p) = after_ws src p.
Proof.
  unfold after_ws at 1. unfold after_ws at 2. rewrite <- skipn_skipn_add, span_skip. lia.
Qed.
Inductive laid (src : list char) : nat -> list token -> Prop :=
| laid_end p : after_ws src p = List.length src -> laid src p []
| laid_tok p e t toks : after_ws src p < List.length src ->
    json_spec src (after_ws src p) = Some (e, Some (tk_kind t, tk_value t)) -> after_ws src p < e <= List.length src ->
    tk_start t = true_loc src (after_ws src p) -> tk_end t = true_loc src e -> laid src e toks -> laid src p (t :: toks).
Lemma laid_skip src p toks : laid src (after_ws src p) toks -> laid src p toks.
Proof.
  intros H. inversion H as [? Q|? e t l Q1 Q2 Q3 Q4 Q5 Q6]; subst; rewrite after_ws_idem in *.
  - apply laid_end. assumption.
  - eapply laid_tok; eassumption.
Qed.
Lemma spec_not_ws src p e k v : json_spec src p = Some (e, Some (k, v)) -> after_ws src p = p.
Proof.
  unfold json_spec, after_ws. destruct (skipn p src) as [|c s] eqn:Q; [discriminate|]. cbn [span]. destruct (is_ws c); [discriminate|]. intros _. lia.
Qed.
Lemma lex_laid src : forall n pos l acc r, lex_loop json_spec src n pos l acc = Ret r ->
  pos <= List.length src -> l = true_loc src pos ->
  exists toks, r = LexOk (acc ++ toks) /\ laid src pos toks.
Proof.
  induction n as [|n IH]; intros pos l acc r H Hp Hl; [discriminate|]. cbn [lex_loop] in H.
  destruct (Nat.ltb_spec pos (List.length src)) as [Hp'|Hp'].
  - pose proof (spec_shift src pos) as Sh. destruct (json_spec src pos) as [[e g]|] eqn:S.
    2:{ exfalso. unfold json_spec in S.
        destruct (skipn pos src) as [|c s] eqn:Q; [apply (f_equal (@List.length _)) in Q; rewrite skipn_length in Q; cbn in Q; lia|].
        destruct (is_ws c), (is_punct_char c), (starts (ascii_chars "true") (c :: s)), (starts (ascii_chars "false") (c :: s)),
          (starts (ascii_chars "null") (c :: s)), (float_len (c :: s)), (int_len (c :: s)), (string_len (c :: s)); discriminate. }
    destruct (json_spec (skipn pos src) 0) as [[m g']|] eqn:S0; [|discriminate]. injection Sh as E Eg. subst g'.
    pose proof (spec_sound _ _ _ S0) as [L _]. rewrite skipn_length in L.
    cbv zeta in H. apply IH in H as (toks & -> & D); [|lia|rewrite Hl; apply lex_end_step; lia].
    destruct g as [[k v]|].
    + eexists. split; [rewrite <- app_assoc; reflexivity|]. cbn [app]. pose proof (spec_not_ws _ _ _ _ _ S) as W.
      eapply laid_tok with (e := e); rewrite ?W; cbn [tk_kind tk_value tk_start tk_end]; auto; [lia|]. rewrite Hl. apply lex_end_step. lia.
    + exists toks. split; [reflexivity|]. apply laid_skip.
      assert (W : after_ws src pos = e); [|rewrite W; exact D].
      unfold json_spec in S. unfold after_ws. destruct (skipn pos src) as [|c s] eqn:Q; [discriminate|].
      destruct (is_ws c); [injection S; auto|]. exfalso. clear - S.
      destruct (is_punct_char c), (starts (ascii_chars "true") (c :: s)), (starts (ascii_chars "false") (c :: s)),
          (starts (ascii_chars "null") (c :: s)), (float_len (c :: s)), (int_len (c :: s)), (string_len (c :: s)); discriminate.
  - injection H as <-. exists []. rewrite app_nil_r. split; [reflexivity|]. apply laid_end.
    unfold after_ws. rewrite skipn_all2 by lia. cbn. lia.
Qed.
(** where token [k] begins *)
Definition place (src : list char) (toks : list token) (k : nat) : nat :=
  match nth_error toks k with Some t => Z.to_nat (loc_pos (tk_start t)) | None => List.length src end.
Lemma place_0 src p toks : laid src p toks -> place src toks 0 = after_ws src p.
Proof.
  intros [? H|? e t l H1 H2 H3 H4 _ _]; unfold place; cbn [nth_error]; [auto|]. rewrite H4. cbn. apply Nat2Z.id.
Qed.
Lemma laid_nth src p toks : laid src p toks -> forall k t, nth_error toks k = Some t ->
  exists e, json_spec src (place src toks k) = Some (e, Some (tk_kind t, tk_value t)) /\
    place src toks k < e <= List.length src /\ place src toks (k + 1) = after_ws src e /\
    tk_start t = true_loc src (place src toks k).
Proof.
  induction 1 as [p H|p e t toks H1 H2 H3 H4 H5 HL IH]; intros k t' Hk; [destruct k; discriminate|].
  destruct k as [|k]; cbn [nth_error] in Hk.
  - injection Hk as <-. assert (P : place src (t :: toks) 0 = after_ws src p) by (unfold place; cbn [nth_error]; rewrite H4; cbn; apply Nat2Z.id).
    exists e. rewrite P. split; [auto|]. split; [auto|]. split; [|auto]. apply (place_0 _ _ _ HL).
  - apply IH in Hk as (e' & K1 & K2 & K3 & K4). exists e'. auto.
Qed.
Lemma laid_places src p toks : laid src p toks -> places toks src (place src toks).
Proof.
  intros HL. split.
  - intros a b [Hab Hb]. revert Hb. induction Hab as [|b Hab IH]; intros Hb.
    + destruct (nth_error toks a) as [t|] eqn:Q; [|apply nth_error_None in Q; lia].
      destruct (laid_nth _ _ _ HL _ _ Q) as (e & _ & K1 & K2 & _). rewrite <- Nat.add_1_r. rewrite K2.
      pose proof (after_ws_le src e). lia.
    + specialize (IH ltac:(lia)). destruct (nth_error toks b) as [t|] eqn:Q; [|apply nth_error_None in Q; lia].
      destruct (laid_nth _ _ _ HL _ _ Q) as (e & _ & K1 & K2 & _). rewrite <- (Nat.add_1_r b). rewrite K2.
      pose proof (after_ws_le src e). lia.
  - unfold place. rewrite (proj2 (nth_error_None toks (List.length toks))); auto.
Qed.
Lemma place_le src p toks : laid src p toks -> forall k, place src toks k <= List.length src.
Proof.
  intros HL k. destruct (nth_error toks k) as [t|] eqn:Q.
  - destruct (laid_nth _ _ _ HL _ _ Q) as (e & _ & K1 & _). lia.
  - unfold place. rewrite Q. auto.
Qed.

(** *** What the patterns find at a token *)
Definition hit (q e : nat) (k : string) (v t : list char) (f : list char -> option (nat * list char)) (k' : string) : Prop :=
  if String.eqb k k' then exists n, f t = Some (n, v) /\ e = q + n else f t = None.
Lemma no_string c (r : list char) : c <> 34%N -> string_len (c :: r) = None.
Proof. intros H. cbn. rewrite (proj2 (N.eqb_neq _ _) H). reflexivity. Qed.
Lemma starts_hd a x c (r : list char) : starts (a :: x) (c :: r) = true -> c = a.
Proof. cbn. intros H. apply andb_true_iff in H as [H _]. apply N.eqb_eq in H. auto. Qed.
Lemma num_hd c (r : list char) n : int_len (c :: r) = Some n -> (c = 45 \/ 48 <= c <= 57)%N.
Proof.
  unfold char in *. cbn [int_len]. destruct (N.eqb_spec c 45) as [->|H]; [auto|]. cbn [nat_len].
  destruct (N.eqb_spec c 48) as [->|H']; [lia|]. unfold in_range. destruct (N.leb_spec 49 c), (N.leb_spec c 57); cbn; try discriminate. lia.
Qed.
Lemma float_int s n : float_len s = Some n -> exists m, int_len s = Some m.
Proof. unfold float_len. destruct (int_len s); [eauto|discriminate]. Qed.
Lemma no_number c (r : list char) : int_len (c :: r) = None -> pat_number (c :: r) = None /\ pat_integer (c :: r) = None.
Proof. intros H. unfold pat_number, pat_integer, float_len. rewrite H. auto. Qed.
Lemma spec_cases src q e k v : json_spec src q = Some (e, Some (k, v)) ->
  exists c r, skipn q src = c :: r /\
  hit q e k v (c :: r) pat_string "string" /\ hit q e k v (c :: r) pat_null "null" /\
  hit q e k v (c :: r) pat_bool "bool" /\ hit q e k v (c :: r) pat_number "float" /\
  (k <> "float"%string -> hit q e k v (c :: r) pat_integer "integer") /\
  (k = "punct"%string -> v = [c] /\ e = q + 1) /\ (is_punct_char c = true <-> k = "punct"%string).
Proof.
  unfold json_spec. destruct (skipn q src) as [|c r] eqn:Q; [discriminate|]. intros H. exists c, r. split; [auto|]. revert H.
  destruct (is_ws c) eqn:W; [discriminate|].
  assert (I : int_len (c :: r) <> None -> (c = 45 \/ 48 <= c <= 57)%N).
  { intros H. destruct (int_len (c :: r)) as [n|] eqn:L; [|congruence]. eapply num_hd; eauto. }
  assert (NI : (c <> 45 -> ~ (48 <= c <= 57) -> pat_number (c :: r) = None /\ pat_integer (c :: r) = None)%N).
  { intros H1 H2. apply no_number. destruct (int_len (c :: r)) eqn:L; [|auto]. destruct I; [congruence|contradiction|contradiction]. }
  destruct (is_punct_char c) eqn:P.
  { intros [= <- <- <-]. unfold hit. cbn [String.eqb Ascii.eqb Bool.eqb]. apply punct_char_cases in P. unfold char in *.
    assert (C : (c = 44 \/ c = 58 \/ c = 91 \/ c = 93 \/ c = 123 \/ c = 125)%N) by (vm_compute in P; vm_compute; lia).
    destruct NI as [N1 N2]; [lia|lia|]. split; [|split; [|split; [|split; [|split; [|split]]]]]; try (intros _); auto; [| | |tauto].
    - unfold pat_string. rewrite no_string by lia. reflexivity.
    - unfold pat_null. destruct (starts (ascii_chars "null") (c :: r)) eqn:S; [|reflexivity]. apply starts_hd in S. vm_compute in S. lia.
    - unfold pat_bool. destruct (starts (ascii_chars "true") (c :: r)) eqn:S; [apply starts_hd in S; vm_compute in S; lia|].
      destruct (starts (ascii_chars "false") (c :: r)) eqn:S'; [apply starts_hd in S'; vm_compute in S'; lia|]. reflexivity. }
  destruct (starts (ascii_chars "true") (c :: r)) eqn:S1.
  { intros [= <- <- <-]. pose proof (starts_firstn _ _ S1) as [S1' _]. apply starts_hd in S1 as C. vm_compute in C. unfold char in *.
    destruct NI as [N1 N2]; [lia|lia|]. unfold hit. cbn [String.eqb Ascii.eqb Bool.eqb].
    split; [|split; [|split; [|split; [|split; [|split]]]]]; try discriminate; try (intros _); auto; [| | |split; discriminate].
    - unfold pat_string. rewrite no_string by lia. reflexivity.
    - unfold pat_null. destruct (starts (ascii_chars "null") (c :: r)) eqn:S; [|reflexivity]. apply starts_hd in S. vm_compute in S. lia.
    - unfold pat_bool. rewrite S1. exists 4. split; [|auto]. do 2 f_equal. exact (eq_sym S1'). }
  destruct (starts (ascii_chars "false") (c :: r)) eqn:S2.
  { intros [= <- <- <-]. pose proof (starts_firstn _ _ S2) as [S2' _]. apply starts_hd in S2 as C. vm_compute in C. unfold char in *.
    destruct NI as [N1 N2]; [lia|lia|]. unfold hit. cbn [String.eqb Ascii.eqb Bool.eqb].
    split; [|split; [|split; [|split; [|split; [|split]]]]]; try discriminate; try (intros _); auto; [| | |split; discriminate].
    - unfold pat_string. rewrite no_string by lia. reflexivity.
    - unfold pat_null. destruct (starts (ascii_chars "null") (c :: r)) eqn:S; [|reflexivity]. apply starts_hd in S. vm_compute in S. lia.
    - unfold pat_bool. rewrite S1, S2. exists 5. split; [|auto]. do 2 f_equal. exact (eq_sym S2'). }
  destruct (starts (ascii_chars "null") (c :: r)) eqn:S3.
  { intros [= <- <- <-]. pose proof (starts_firstn _ _ S3) as [S3' _]. apply starts_hd in S3 as C. vm_compute in C. unfold char in *.
    destruct NI as [N1 N2]; [lia|lia|]. unfold hit. cbn [String.eqb Ascii.eqb Bool.eqb].
    split; [|split; [|split; [|split; [|split; [|split]]]]]; try discriminate; try (intros _); auto; [| | |split; discriminate].
    - unfold pat_string. rewrite no_string by lia. reflexivity.
    - unfold pat_null. rewrite S3. exists 4. split; [|auto]. do 2 f_equal. exact (eq_sym S3').
    - unfold pat_bool. rewrite S1, S2. reflexivity. }
  assert (B : pat_bool (c :: r) = None) by (unfold pat_bool; rewrite S1, S2; reflexivity).
  assert (N : pat_null (c :: r) = None) by (unfold pat_null; rewrite S3; reflexivity).
  destruct (float_len (c :: r)) as [n|] eqn:Fl.
  { intros [= <- <- <-]. destruct (float_int _ _ Fl) as [m Im]. assert (C : (c = 45 \/ 48 <= c <= 57)%N) by (apply I; congruence). unfold char in *.
    unfold hit. cbn [String.eqb Ascii.eqb Bool.eqb].
    split; [|split; [|split; [|split; [|split; [|split]]]]]; auto; try discriminate; try congruence; [| |split; discriminate].
    - unfold pat_string. rewrite no_string by lia. reflexivity.
    - unfold pat_number. rewrite Fl. exists n. auto. }
  destruct (int_len (c :: r)) as [n|] eqn:Il.
  { intros [= <- <- <-]. assert (C : (c = 45 \/ 48 <= c <= 57)%N) by (apply I; congruence). unfold char in *.
    unfold hit. cbn [String.eqb Ascii.eqb Bool.eqb].
    split; [|split; [|split; [|split; [|split; [|split]]]]]; auto; try discriminate; [| | |split; discriminate].
    - unfold pat_string. rewrite no_string by lia. reflexivity.
    - unfold pat_number. rewrite Fl. reflexivity.
    - intros _. unfold pat_integer. rewrite Il. exists n. auto. }
  destruct (no_number _ _ Il) as [N1 N2].
  destruct (string_len (c :: r)) as [n|] eqn:Sl.
  { intros [= <- <- <-]. unfold hit. cbn [String.eqb Ascii.eqb Bool.eqb].
    split; [|split; [|split; [|split; [|split; [|split]]]]]; auto; try discriminate; [|split; discriminate].
    unfold pat_string. rewrite Sl. exists (n + 2). auto. }
  intros [= <- <- <-]. unfold hit. cbn [String.eqb Ascii.eqb Bool.eqb].
  split; [|split; [|split; [|split; [|split; [|split]]]]]; auto; try discriminate; [|split; discriminate].
  unfold pat_string. rewrite Sl. reflexivity.
Qed.

(** *** Small steps *)
Section Steps.
Context {T : Type} {V : nat -> Type} (E : env T V) (s : list T) (at_ : nat -> loc).
Lemma label_hit A (p : gram T V A) x m i v j : i < j ->
  diag E s at_ _ p m i (DSucc v j []) -> diag E s at_ _ (GLabel p x) m i (DSucc v j []).
Proof.
  intros L H. pose proof (dg_label E s at_ _ p x m i _ H) as K. cbn [d_label] in K. apply Nat.ltb_lt in L. rewrite L in K. exact K.
Qed.
Lemma label_miss A (p : gram T V A) x m i l X :
  diag E s at_ _ p m i (DFail false l X) -> diag E s at_ _ (GLabel p x) m i (DFail false l [x]).
Proof. intros H. exact (dg_label E s at_ _ p x m i _ H). Qed.
Lemma alt_hit A (p q : gram T V A) m i l X v j : i < j ->
  diag E s at_ _ p m i (DFail false l X) -> diag E s at_ _ q m i (DSucc v j []) -> diag E s at_ _ (GAlt p q) m i (DSucc v j []).
Proof.
  intros L H H'. pose proof (dg_alt_r E s at_ _ p q m i l X _ H H') as K. cbn [d_else] in K. apply Nat.ltb_lt in L. rewrite L in K. exact K.
Qed.
Lemma alt_miss A (p q : gram T V A) m i l X l' X' :
  diag E s at_ _ p m i (DFail false l X) -> diag E s at_ _ q m i (DFail false l' X') -> diag E s at_ _ (GAlt p q) m i (DFail false l (X ++ X')).
Proof. intros H H'. exact (dg_alt_r E s at_ _ p q m i l X _ H H'). Qed.
End Steps.

Section Det.
Context {T : Type} {V : nat -> Type} (E : env T V) (s : list T) (get : loc -> list T -> nat -> loc) (at_ : nat -> loc).
Hypothesis Hco : cohere get s at_.
Hypothesis HE : wf_env E.
Lemma diag_det A (g : gram T V A) m i o o' : wf g -> lay_ok E g s at_ -> i <= List.length s ->
  diag E s at_ A g m i o -> diag E s at_ A g m i o' -> o = o'.
Proof using Hco HE.
  intros Hg Hl Hi H H'.
  destruct (lay_gok _ _ _ _ _ HE Hg Hl) as [G1 G2].
  set (c := Ctx (T:=T) m (at_ i) get).
  assert (Hc : pos_Cok (T:=T) get at_ i c) by (split; [reflexivity|right; exists i; auto]).
  pose proof (fun o K => diag_complete E s get at_ _ Hco (fun x => x) G2 A g m i o K G1 Hi c Hc eq_refl) as HC.
  destruct (HC o H) as [n Hn], (HC o' H') as [n' Hn'].
  assert (K : fast E n g s i c = fast E n' g s i c).
  { apply fast_agree; intros K; rewrite K in *; discriminate. }
  rewrite K in Hn. congruence.
Qed.
End Det.

(** *** The parts *)
Section Parts.
Context {F : Type}.
Variable unescape : list char -> list char.
Variable int_of : list char -> Z.
Variable float_of : list char -> F.
Variable src : list char.
Variable toks : list token.
Hypothesis HL : laid src 0 toks.
Notation E := (json_E unescape int_of float_of).
Notation E' := (scan_E unescape int_of float_of).
Notation at1 := (loc_from_stream toks).
Notation at2 := (true_loc src).
Notation pl := (place src toks).
Notation d1 := (diag E toks at1).
Notation d2 := (diag E' src at2).
Notation sgram := (gram char (@json_V F)).

Lemma j_det A (g : gram token (@json_V F) A) m i o o' : wf g -> no_layout g -> i <= List.length toks ->
  d1 A g m i o -> d1 A g m i o' -> o = o'.
Proof using.
  intros H1 H2. apply (diag_det E toks lexer_get_loc at1 (lexer_cohere toks) (json_wf_E _ _ _)); auto.
  right. split; [exact H2|apply json_no_layout_E].
Qed.
(** a part may be shown on any outcome, there is only one *)
Lemma part_any A A' (R : A -> A' -> Prop) loose (g : gram token (@json_V F) A) (g' : sgram A') : wf g -> no_layout g ->
  (forall m i, i <= List.length toks -> exists o o', d1 A g m i o /\ d2 A' g' m (pl i) o' /\ outcomes toks at1 at2 pl R loose i o o') ->
  part E E' toks src at1 at2 pl R loose g g'.
Proof using.
  intros H1 H2 H m i o Hi D. destruct (H m i Hi) as (o0 & o' & D0 & D' & O).
  rewrite (j_det _ _ _ _ _ _ H1 H2 Hi D D0). eauto.
Qed.
Lemma part_loosen A A' (R : A -> A' -> Prop) loose (g : gram token (@json_V F) A) (g' : sgram A') :
  part E E' toks src at1 at2 pl R false g g' -> part E E' toks src at1 at2 pl R loose g g'.
Proof using.
  intros H m i o Hi D. destruct (H m i o Hi D) as (o' & D' & O). exists o'. split; [exact D'|].
  eapply outs_loosen. exact O.
Qed.

Lemma tok_hit k m i t : nth_error toks i = Some t -> tk_kind t = k -> d1 _ (token_p k) m i (DSucc t (i + 1) []).
Proof using.
  intros H K. unfold token_p. apply label_hit; [lia|]. apply dg_sat; [exact H|]. rewrite K, String.eqb_refl. reflexivity.
Qed.
Lemma tok_miss k m i : (forall t, nth_error toks i = Some t -> tk_kind t <> k) -> d1 _ (token_p k) m i (DFail false (at1 i) [k]).
Proof using.
  intros H. unfold token_p. eapply label_miss. destruct (nth_error toks i) as [t|] eqn:Q.
  - eapply dg_sat_no; [exact Q|]. specialize (H t eq_refl). apply String.eqb_neq in H. rewrite H. reflexivity.
  - apply dg_sat_end. exact Q.
Qed.
Lemma re_hit f x m q n v : f (skipn q src) = Some (n, v) -> 0 < n ->
  d2 _ (GLabel (GRegexp (re_token f)) x) m q (DSucc v (after_ws src (q + n)) []).
Proof using.
  intros H L. apply label_hit; [unfold after_ws; lia|]. apply dg_re. unfold re_token. rewrite H. unfold after_ws.
  rewrite skipn_skipn_add. reflexivity.
Qed.
Lemma re_miss f x m q : f (skipn q src) = None -> d2 _ (GLabel (GRegexp (re_token f)) x) m q (DFail false (at2 q) [x]).
Proof using.
  intros H. eapply label_miss. apply dg_re_no. unfold re_matches, re_token. rewrite H. intros (e & v & K). discriminate.
Qed.
Lemma at_place i : i < List.length toks -> at1 i = at2 (pl i).
Proof using HL.
  intros H. unfold loc_from_stream. destruct (nth_error toks i) as [t|] eqn:Q; [|apply nth_error_None in Q; lia].
  destruct (laid_nth _ _ _ HL _ _ Q) as (e & _ & _ & _ & K). exact K.
Qed.
Lemma at_end i : List.length toks <= i -> skipn (pl i) src = [].
Proof using. intros H. unfold place. rewrite (proj2 (nth_error_None toks i) H). apply skipn_all. Qed.

Lemma eqb_chars a b : chars_eqb a b = true -> a = b.
Proof using.
  revert b. induction a as [|x a IH]; intros [|y b]; cbn; try discriminate; auto. intros H. apply andb_true_iff in H as [H1 H2].
  apply N.eqb_eq in H1. apply IH in H2. congruence.
Qed.
Lemma part_punct a loose : In a ["{"; "}"; "["; "]"; ":"; ","]%char ->
  part E E' toks src at1 at2 pl (fun _ _ => True) loose (punct (String a "")) (spunct a).
Proof using HL.
  intros Ha. refine (part_loosen _ _ _ _ _ _ _). refine (part_any _ _ _ _ _ _ _ _ _).
  1: split; [cbn; rewrite N.eqb_refl; reflexivity|exact I].
  1: split; [intros H; exact H|exact I].
  intros m i Hi.
  assert (P : is_punct_char (N_of_ascii a) = true).
  { cbn in Ha. repeat destruct Ha as [<-|Ha]; try contradiction; reflexivity. }
  assert (M : forall m q, @stands_at char N.eqb [N_of_ascii a] src q = false ->
    d2 _ (spunct a) m q (DFail false (at2 q) [("'" ++ String a "'")%string])).
  { intros m' q H. apply dg_seq_fail, dg_lit_no. exact H. }
  assert (M1 : (forall t, nth_error toks i = Some t -> token_eqb t (Token "punct" (ascii_chars (String a "")) loc0 loc0) = false) ->
    d1 _ (punct (String a "")) m i (DFail false (at1 i) [("'" ++ String a "'")%string])).
  { intros H. apply dg_sym_no. exact H. }
  destruct (nth_error toks i) as [t|] eqn:Q.
  - destruct (laid_nth _ _ _ HL _ _ Q) as (e & K1 & K2 & K3 & K4). destruct (spec_cases _ _ _ _ _ K1) as (c & r & S & _ & _ & _ & _ & _ & C1 & C2).
    assert (SW : @stands_at char N.eqb [N_of_ascii a] src (pl i) = N.eqb c (N_of_ascii a)).
    { change (is_prefix N.eqb [N_of_ascii a] (@skipn char (pl i) src) = N.eqb c (N_of_ascii a)). rewrite S. cbn. rewrite andb_true_r. reflexivity. }
    destruct (token_eqb t (Token "punct" (ascii_chars (String a "")) loc0 loc0)) eqn:TE.
    + pose proof TE as TE'. unfold token_eqb in TE. apply andb_true_iff in TE as [T1 T2]. apply String.eqb_eq in T1. apply eqb_chars in T2. cbn in T1, T2.
      destruct (C1 T1) as [V ->]. assert (c = N_of_ascii a) by (rewrite V in T2; cbn in T2; congruence). subst c.
      exists (DSucc t (i + 1) []), (DSucc [N_of_ascii a] (pl (i + 1)) []). split; [apply dg_sym; auto|]. split.
      * pose proof (dg_seq E' src at2 _ _ _ (GLiteral N.eqb [N_of_ascii a] ("'" ++ String a "'")%string) ows (fun l _ => l) m (pl i)
          [N_of_ascii a] (pl i + 1) [] (DSucc (firstn (span is_ws (skipn (pl i + 1) src)) (skipn (pl i + 1) src)) (after_ws src (pl i + 1)) [])) as D.
        cbn [d_after on_dvalue app] in D. rewrite K3.
        assert (X : (if pl i + 1 <? after_ws src (pl i + 1) then [] else []) = @nil string) by (destruct (_ <? _); reflexivity). rewrite X in D.
        apply D; [apply dg_lit; rewrite SW; apply N.eqb_refl|]. apply dg_re. reflexivity.
      * cbn [outcomes]. assert (i < List.length toks) by (apply nth_error_Some; congruence). repeat split; auto; lia.
    + exists (DFail false (at1 i) [("'" ++ String a "'")%string]), (DFail false (at2 (pl i)) [("'" ++ String a "'")%string]).
      split; [apply M1; intros t' [= <-]; exact TE|]. split.
      * apply M. rewrite SW. destruct (N.eqb_spec c (N_of_ascii a)) as [->|]; [|auto]. apply C2 in P. destruct (C1 P) as [V _].
        unfold token_eqb in TE. rewrite P, V in TE. cbn in TE. rewrite N.eqb_refl in TE. discriminate.
      * cbn [outcomes]. split; [auto|]. split; [exists i; auto|auto].
  - exists (DFail false (at1 i) [("'" ++ String a "'")%string]), (DFail false (at2 (pl i)) [("'" ++ String a "'")%string]).
    split; [apply M1; intros t; discriminate|]. split.
    + apply M. apply nth_error_None in Q. change (is_prefix N.eqb [N_of_ascii a] (@skipn char (pl i) src) = false). rewrite (at_end i Q). reflexivity.
    + cbn [outcomes]. split; [auto|]. split; [exists i; auto|auto].
Qed.

Lemma hit_after q e n : e = q + n -> after_ws src e = after_ws src (q + n).
Proof using. intros ->. reflexivity. Qed.
Lemma hit_pos t i e (f : list char -> option (nat * list char)) n : nth_error toks i = Some t ->
  pl i < e -> e = pl i + n -> 0 < n.
Proof using. lia. Qed.
Definition names5 : list string := ((((["integer"%string] ++ ["float"%string]) ++ ["bool"%string]) ++ ["null"%string]) ++ ["string"%string]).
Definition names5' : list string := ((((["number"%string] ++ ["integer"%string]) ++ ["bool"%string]) ++ ["null"%string]) ++ ["string"%string]).

(** what a scalar parser does at a token of kind [k] *)
Lemma jscalar_hit m i t v : nth_error toks i = Some t -> is_scalar unescape int_of float_of t v ->
  d1 _ (jscalar unescape int_of float_of) m i (DSucc v (i + 1) []).
Proof using.
  intros Q S.
  assert (Y : forall A k (f : token -> A), tk_kind t = k -> d1 _ (GFmap (token_p k) (fun t => Ret (f t))) m i (DSucc (f t) (i + 1) [])).
  { intros A k f K. eapply dg_fmap; [apply tok_hit; eauto|reflexivity]. }
  assert (N : forall A k (f : token -> out A), tk_kind t <> k -> d1 _ (GFmap (token_p k) f) m i (DFail false (at1 i) [k])).
  { intros A k f K. apply dg_fmap_fail, tok_miss. intros t' H. assert (t' = t) by congruence. subst t'. exact K. }
  assert (L : i < i + 1) by lia. unfold jscalar.
  destruct S as [K|K|K|K Hv|K Hv|K]; unfold is_kind in K; rewrite ?K in N.
  - eapply alt_hit; [exact L| |apply (Y _ _ (fun t => JStr (unescape (tk_value t)))); exact K].
    do 3 (eapply alt_miss; [|apply N; discriminate]). apply N. discriminate.
  - do 4 apply dg_alt_l. apply (Y _ _ (fun t => JInt (int_of (tk_value t)))); exact K.
  - do 3 apply dg_alt_l. eapply alt_hit; [exact L|apply N; discriminate|]. apply (Y _ _ (fun t => JFloat (float_of (tk_value t)))); exact K.
  - do 2 apply dg_alt_l. eapply alt_hit; [exact L|eapply alt_miss; apply N; discriminate|].
    pose proof (Y _ _ (fun t => JBool (F := F) (chars_eqb (tk_value t) (ascii_chars "true"))) K) as D. cbn beta in D. rewrite Hv in D. exact D.
  - do 2 apply dg_alt_l. eapply alt_hit; [exact L|eapply alt_miss; apply N; discriminate|].
    pose proof (Y _ _ (fun t => JBool (F := F) (chars_eqb (tk_value t) (ascii_chars "true"))) K) as D. cbn beta in D.
    destruct (chars_eqb (tk_value t) (ascii_chars "true")) eqn:C; [|exact D]. apply eqb_chars in C. contradiction.
  - apply dg_alt_l. eapply alt_hit; [exact L|eapply alt_miss; [eapply alt_miss|]; apply N; discriminate|].
    apply (Y _ _ (fun t => JNull)); exact K.
Qed.
Definition scalar_kind (k : string) : Prop := In k names5.
Lemma jscalar_miss m i : (forall t, nth_error toks i = Some t -> ~ scalar_kind (tk_kind t)) ->
  d1 _ (jscalar unescape int_of float_of) m i (DFail false (at1 i) names5).
Proof using.
  intros H.
  assert (N : forall A k (f : token -> out A), scalar_kind k -> d1 _ (GFmap (token_p k) f) m i (DFail false (at1 i) [k])).
  { intros A k f K. apply dg_fmap_fail, tok_miss. intros t Ht <-. exact (H t Ht K). }
  unfold jscalar, names5. repeat eapply alt_miss; apply N; cbn; tauto.
Qed.
Lemma part_scalar : part E E' toks src at1 at2 pl eq true (jscalar unescape int_of float_of) (sscalar unescape int_of float_of).
Proof using HL.
  refine (part_any _ _ _ _ _ _ _ _ _); [solve_gall|solve_gall|]. intros m i Hi.
  assert (Y : forall A x f n v (g : list char -> A), f (skipn (pl i) src) = Some (n, v) -> 0 < n ->
    d2 _ (GFmap (GLabel (GRegexp (re_token f)) x) (fun y => Ret (g y))) m (pl i) (DSucc (g v) (after_ws src (pl i + n)) [])).
  { intros A x f n v g H1 H2. eapply dg_fmap; [apply re_hit; eauto|reflexivity]. }
  assert (N : forall A x f (g : list char -> out A), f (skipn (pl i) src) = None ->
    d2 _ (GFmap (GLabel (GRegexp (re_token f)) x) g) m (pl i) (DFail false (at2 (pl i)) [x])).
  { intros A x f g H1. apply dg_fmap_fail, re_miss. exact H1. }
  assert (Fail : (forall t, nth_error toks i = Some t -> ~ scalar_kind (tk_kind t)) ->
    pat_number (skipn (pl i) src) = None -> pat_integer (skipn (pl i) src) = None -> pat_bool (skipn (pl i) src) = None ->
    pat_null (skipn (pl i) src) = None -> pat_string (skipn (pl i) src) = None ->
    exists o o', d1 _ (jscalar unescape int_of float_of) m i o /\ d2 _ (sscalar unescape int_of float_of) m (pl i) o' /\
      outcomes toks at1 at2 pl eq true i o o').
  { intros H H1 H2 H3 H4 H5. exists (DFail false (at1 i) names5), (DFail false (at2 (pl i)) names5').
    split; [apply jscalar_miss; exact H|]. split.
    - unfold sscalar, names5'. repeat eapply alt_miss; apply N; assumption.
    - cbn [outcomes]. split; [auto|]. split; [exists i; auto|]. intros [K|K]; discriminate. }
  destruct (nth_error toks i) as [t|] eqn:Q.
  2:{ apply nth_error_None in Q. apply Fail; rewrite ?(at_end i Q); try reflexivity. intros t; discriminate. }
  destruct (laid_nth _ _ _ HL _ _ Q) as (e & K1 & K2 & K3 & K4).
  destruct (spec_cases _ _ _ _ _ K1) as (c & r & S & C1 & C2 & C3 & C4 & C5 & _). rewrite <- S in C1, C2, C3, C4, C5.
  assert (Hi' : i < List.length toks) by (apply nth_error_Some; congruence).
  assert (Succ : forall v n, is_scalar unescape int_of float_of t v -> e = pl i + n ->
    (0 < n -> d2 _ (sscalar unescape int_of float_of) m (pl i) (DSucc v (after_ws src (pl i + n)) [])) ->
    exists o o', d1 _ (jscalar unescape int_of float_of) m i o /\ d2 _ (sscalar unescape int_of float_of) m (pl i) o' /\
      outcomes toks at1 at2 pl eq true i o o').
  { intros v n H1 H2 H3. exists (DSucc v (i + 1) []), (DSucc v (pl (i + 1)) []). split; [apply (jscalar_hit m i t v Q H1)|]. split.
    - rewrite K3, H2. apply H3. lia.
    - cbn [outcomes]. repeat split; auto; lia. }
  unfold hit in C1, C2, C3, C4, C5.
  assert (L : forall n, 0 < n -> pl i < after_ws src (pl i + n)) by (intros n Hn; unfold after_ws; lia).
  destruct (String.eqb_spec (tk_kind t) "string") as [K|NS].
  { rewrite K in *. cbn in C2, C3, C4. specialize (C5 ltac:(discriminate)). cbn in C5. destruct C1 as (n & C1 & En).
    apply (Succ (JStr (unescape (tk_value t))) n); [apply is_str; exact K|exact En|]. intros Hn.
    unfold sscalar. eapply alt_hit; [apply L; exact Hn| |apply (Y _ _ _ _ _ (fun x => JStr (unescape x)) C1 Hn)].
    repeat eapply alt_miss; apply N; assumption. }
  destruct (String.eqb_spec (tk_kind t) "null") as [K|NN].
  { rewrite K in *. cbn in C3, C4. specialize (C5 ltac:(discriminate)). cbn in C5. destruct C2 as (n & C2 & En).
    apply (Succ JNull n); [apply is_null; exact K|exact En|]. intros Hn.
    unfold sscalar. apply dg_alt_l. eapply alt_hit; [apply L; exact Hn| |apply (Y _ _ _ _ _ (fun x => JNull) C2 Hn)].
    repeat eapply alt_miss; apply N; assumption. }
  destruct (String.eqb_spec (tk_kind t) "bool") as [K|NB].
  { rewrite K in *. cbn in C4. specialize (C5 ltac:(discriminate)). cbn in C5. destruct C3 as (n & C3 & En).
    apply (Succ (JBool (chars_eqb (tk_value t) (ascii_chars "true"))) n); [|exact En|].
    - destruct (chars_eqb (tk_value t) (ascii_chars "true")) eqn:B.
      + apply is_true; [exact K|apply eqb_chars; exact B].
      + apply is_false; [exact K|]. intros B'. rewrite B' in B. vm_compute in B. discriminate.
    - intros Hn. unfold sscalar. do 2 apply dg_alt_l.
      eapply alt_hit; [apply L; exact Hn| |apply (Y _ _ _ _ _ (fun x => JBool (chars_eqb x (ascii_chars "true"))) C3 Hn)].
      repeat eapply alt_miss; apply N; assumption. }
  destruct (String.eqb_spec (tk_kind t) "float") as [K|NF].
  { destruct C4 as (n & C4 & En).
    apply (Succ (JFloat (float_of (tk_value t))) n); [apply is_float; exact K|exact En|]. intros Hn.
    unfold sscalar. do 4 apply dg_alt_l. apply (Y _ _ _ _ _ (fun x => JFloat (float_of x)) C4 Hn). }
  specialize (C5 NF). destruct (String.eqb_spec (tk_kind t) "integer") as [K|NI].
  { destruct C5 as (n & C5 & En).
    apply (Succ (JInt (int_of (tk_value t))) n); [apply is_int; exact K|exact En|]. intros Hn.
    unfold sscalar. do 3 apply dg_alt_l. eapply alt_hit; [apply L; exact Hn|apply N; assumption|].
    apply (Y _ _ _ _ _ (fun x => JInt (int_of x)) C5 Hn). }
  apply Fail; auto. intros t' [= <-] H. cbn in H. repeat destruct H as [H|H]; try contradiction; congruence.
Qed.
Lemma part_string loose : part E E' toks src at1 at2 pl eq loose (jstring unescape) (sstring unescape).
Proof using HL.
  refine (part_loosen _ _ _ _ _ _ _). refine (part_any _ _ _ _ _ _ _ _ _); [solve_gall|solve_gall|]. intros m i Hi.
  assert (Fail : (forall t, nth_error toks i = Some t -> tk_kind t <> "string"%string) -> pat_string (skipn (pl i) src) = None ->
    exists o o', d1 _ (jstring unescape) m i o /\ d2 _ (sstring unescape) m (pl i) o' /\ outcomes toks at1 at2 pl eq false i o o').
  { intros H1 H2. exists (DFail false (at1 i) ["string"%string]), (DFail false (at2 (pl i)) ["string"%string]).
    split; [apply dg_fmap_fail, tok_miss; exact H1|]. split; [apply dg_fmap_fail, re_miss; exact H2|].
    cbn [outcomes]. split; [auto|]. split; [exists i; auto|auto]. }
  destruct (nth_error toks i) as [t|] eqn:Q.
  2:{ apply nth_error_None in Q. apply Fail; rewrite ?(at_end i Q); try reflexivity. intros t; discriminate. }
  destruct (laid_nth _ _ _ HL _ _ Q) as (e & K1 & K2 & K3 & K4).
  destruct (spec_cases _ _ _ _ _ K1) as (c & r & S & C1 & _). rewrite <- S in C1. unfold hit in C1.
  assert (Hi' : i < List.length toks) by (apply nth_error_Some; congruence).
  destruct (String.eqb_spec (tk_kind t) "string") as [K|NS].
  - destruct C1 as (n & C1 & ->). exists (DSucc (unescape (tk_value t)) (i + 1) []), (DSucc (unescape (tk_value t)) (pl (i + 1)) []).
    split; [eapply dg_fmap; [apply tok_hit; eauto|reflexivity]|]. split.
    + rewrite K3. eapply dg_fmap; [apply re_hit; [exact C1|lia]|reflexivity].
    + cbn [outcomes]. repeat split; auto; lia.
  - apply Fail; [|exact C1]. intros t' [= <-]. exact NS.
Qed.

Definition all_link (d d' : nat) : Prop := True.
Definition eq_json (d d' : nat) (v : json_V (F := F) d) (v' : json_V (F := F) d') : Prop := v = v'.
Notation alk := (alike E E' toks src at1 at2 pl all_link eq_json).
Lemma alike_value loose : alk loose eq (jvalue (F := F)) (svalue (F := F)).
Proof using. right. split; [exact I|]. intros v v' H. exact H. Qed.
Lemma alike_sep A loose (p : gram token (@json_V F) A) (p' : sgram A) : alk true eq p p' -> alk false eq p p' ->
  alk loose eq (sep_by p (punct ",")) (sep_by p' (spunct ",")).
Proof using HL.
  intros H1 H2. right. exists eq. split; [|intros v v' <-; reflexivity].
  right. exists eq. split; [|split; [reflexivity|intros v v' <-; reflexivity]].
  right. exists eq, eq. split; [destruct loose; assumption|]. split; [|intros v v' w w' <- <-; reflexivity].
  right. exists eq. split.
  - right. exists (fun _ _ => True), eq. split; [left; apply (part_punct ","%char); cbn; tauto|]. split; [exact H2|]. intros v v' w w' _ <-. reflexivity.
  - intros l l' H. induction H; [auto|]. subst. reflexivity.
Qed.
Lemma alike_between A (a b : ascii) (p : gram token (@json_V F) A) (p' : sgram A) :
  In a ["{"; "}"; "["; "]"; ":"; ","]%char -> In b ["{"; "}"; "["; "]"; ":"; ","]%char -> alk false eq p p' ->
  alk true eq (between (punct (String a "")) (punct (String b "")) p) (between (spunct a) (spunct b) p').
Proof using HL.
  intros Ha Hb H. right. exists (fun _ _ => True), eq. split; [left; apply part_punct; exact Ha|]. split; [|intros v v' w w' _ <-; reflexivity].
  right. exists eq, (fun _ _ => True). split; [exact H|]. split; [left; apply part_punct; exact Hb|]. intros v v' w w' <- _. reflexivity.
Qed.
Lemma alike_member loose : alk loose eq (jmember unescape (F := F)) (smember unescape (F := F)).
Proof using HL.
  right. exists eq, eq. split; [|split; [apply alike_value|intros v v' w w' <- <-; reflexivity]].
  right. exists eq, (fun _ _ => True). split; [|split; [left; apply (part_punct ":"%char); cbn; tauto|intros v v' w w' <- _; reflexivity]].
  right. left. apply part_string.
Qed.
Lemma alike_dict loose : alk loose eq (jdict unescape (F := F)) (sdict unescape (F := F)).
Proof using HL.
  right. split; [reflexivity|]. apply alike_between; [cbn; tauto|cbn; tauto|].
  right. exists eq. split; [|intros v v' <-; reflexivity]. apply alike_sep; apply alike_member.
Qed.
Lemma alike_list loose : alk loose eq (jlist (F := F)) (slist (F := F)).
Proof using HL.
  right. split; [reflexivity|]. apply alike_between; [cbn; tauto|cbn; tauto|].
  right. exists eq. split; [|intros v v' <-; reflexivity]. apply alike_sep; apply alike_value.
Qed.
Lemma json_alike : alike_env E E' toks src at1 at2 pl all_link eq_json.
Proof using HL.
  intros d d' _. right. split; [reflexivity|]. right. split.
  - right. split; [right; left; apply part_scalar|right; apply alike_dict].
  - right. apply alike_list.
Qed.
Lemma json_top : alk false eq (json_parser (F := F)) (seql (svalue (F := F)) GEof).
Proof using.
  right. exists eq, (fun _ _ => True). split; [apply alike_value|]. split; [right; exact I|]. intros v v' w w' <- _. reflexivity.
Qed.
End Parts.
