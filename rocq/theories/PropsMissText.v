(** C75 for JSON as text: the last bracket is missing *)
From Verif Require Import Fuel ApiSpec ApiProofs Locations Json JsonSpec JsonProofs JsonText JsonTextSpec JsonTextProofs JsonTextMain JsonLL PropsJson
  PropsJsonText JsonScan JsonScanProofs PropsScan PropsScanPos PropsMissJson.
From Coq Require Import Lia.
Import ListNotations.

Definition closer (c : char) : Prop := c = 93%N \/ c = 125%N.
Lemma last_digits ds n x c : decimal ds n -> ds = x ++ [c] -> ~ closer c.
Proof.
  intros D -> H. apply decimal_digits in D as [D _]. apply Forall_app in D as [_ D]. inversion D as [|? ? D1 _]. unfold digit in D1.
  destruct H as [-> | ->]; lia.
Qed.
Lemma last_integer i z x c : is_integer i z -> i = x ++ [c] -> ~ closer c.
Proof.
  intros [ds n [D _]|ds n [D _]] Q; [eapply last_digits; eauto|].
  destruct x as [|y x]; [|injection Q as _ Q; eapply last_digits; eauto].
  injection Q as _ Q. subst. apply decimal_digits in D as [_ D]. congruence.
Qed.
Lemma snoc_app {X} (a b : list X) x c : a ++ b = x ++ [c] -> b <> [] -> exists y, b = y ++ [c].
Proof.
  intros H N. destruct (exists_last N) as (y & c' & ->). rewrite app_assoc in H. apply app_inj_tail in H as [_ ->]. eauto.
Qed.
Lemma last_fraction f x c : is_fraction f -> f = x ++ [c] -> ~ closer c.
Proof.
  intros [ds [n D]] Q. change (46%N :: ds) with ([46%N] ++ ds) in Q. apply snoc_app in Q as [y Q]; [|apply decimal_digits in D; tauto].
  eapply last_digits; eauto.
Qed.
Lemma last_exponent f x c : is_exponent f -> f = x ++ [c] -> ~ closer c.
Proof.
  intros [e ds _ [n D]|e g ds _ _ [n D]] Q.
  - change (e :: ds) with ([e] ++ ds) in Q. apply snoc_app in Q as [y Q]; [|apply decimal_digits in D; tauto]. eapply last_digits; eauto.
  - change (e :: g :: ds) with ([e; g] ++ ds) in Q. apply snoc_app in Q as [y Q]; [|apply decimal_digits in D; tauto]. eapply last_digits; eauto.
Qed.
Lemma exponent_some f : is_exponent f -> f <> [].
Proof. intros [? ? ? ?|? ? ? ? ? ?]; discriminate. Qed.
Lemma last_floating f x c : is_floating f -> f = x ++ [c] -> ~ closer c.
Proof.
  intros [i z fr _ H|i z e _ H|i z fr e _ _ H] Q.
  - apply snoc_app in Q as [y Q]; [|destruct H; discriminate]. eapply last_fraction; eauto.
  - apply snoc_app in Q as [y Q]; [|apply exponent_some; auto]. eapply last_exponent; eauto.
  - rewrite app_assoc in Q. apply snoc_app in Q as [y Q]; [|apply exponent_some; auto]. eapply last_exponent; eauto.
Qed.
Lemma spelling_last t x c : spelling t (x ++ [c]) -> closer c -> x = [] /\ (c = 93%N /\ is_punct "]" t \/ c = 125%N /\ is_punct "}" t).
Proof.
  intros H C. remember (x ++ [c]) as y eqn:Q. destruct H as [a I P|_ _|_ _|_ _|z _ H|_ H|s _ _ _].
  - destruct x as [|? [|? ?]]; try discriminate. injection Q as <-. split; auto.
    cbn in I. decompose [or] I; subst; destruct C as [C|C]; try discriminate; try tauto; auto.
  - change (ascii_chars "true") with ([116%N; 114%N; 117%N] ++ [101%N]) in Q. apply app_inj_tail in Q as [_ <-]. destruct C; discriminate.
  - change (ascii_chars "false") with ([102%N; 97%N; 108%N; 115%N] ++ [101%N]) in Q. apply app_inj_tail in Q as [_ <-]. destruct C; discriminate.
  - change (ascii_chars "null") with ([110%N; 117%N; 108%N] ++ [108%N]) in Q. apply app_inj_tail in Q as [_ <-]. destruct C; discriminate.
  - destruct (last_integer _ _ _ _ H Q C).
  - destruct (last_floating _ _ _ H Q C).
  - rewrite app_comm_cons in Q. apply app_inj_tail in Q as [_ <-]. destruct C; discriminate.
Qed.
Lemma written_snoc y toks : written y toks -> forall x c, y = x ++ [c] -> closer c ->
  exists toks1 t, toks = toks1 ++ [t] /\ written x toks1 /\ (c = 93%N /\ is_punct "]" t \/ c = 125%N /\ is_punct "}" t).
Proof.
  induction 1 as [w Hw|w t z rest toks Hw Hs Hr IH]; intros x c Q C.
  - subst w. apply Forall_app in Hw as [_ Hw]. inversion Hw as [|? ? K _]. unfold white in K. destruct C as [-> | ->]; lia.
  - destruct rest as [|r0 rest].
    + rewrite app_nil_r in Q. pose proof Hs as Hs'. apply spelling_hd in Hs' as (c0 & z' & Z & _).
      pose proof Q as Q0. apply snoc_app in Q as [z1 ->]; [|rewrite Z; discriminate]. destruct (spelling_last _ _ _ Hs C) as [-> P].
      apply app_inj_tail in Q0 as [-> _]. exists [], t.
      assert (toks = []) as ->. { inversion Hr as [|w' t' x' ? ? ? Hs2 ? Q2]; auto. subst. apply spelling_hd in Hs2 as (? & ? & -> & _). destruct w'; discriminate. }
      split; [reflexivity|]. split; [apply wr_end; exact Hw|exact P].
    + pose proof Q as Q0. rewrite app_assoc in Q. apply snoc_app in Q as [y Q]; [|discriminate].
      destruct (IH _ _ Q C) as (toks1 & t1 & -> & W & P). exists (t :: toks1), t1. split; [reflexivity|]. split; [|exact P].
      rewrite Q, !app_assoc in Q0. apply app_inj_tail in Q0 as [<- _]. rewrite <- app_assoc. apply wr_token; auto.
Qed.

Section P.
Context {F : Type}.
Variable float_of : list char -> F.
Notation E := (json_E json_unescape json_int float_of).
Notation top := (json_parser (F := F)).

(** If a text is JSON once a closing bracket is added at its end, then parsing
    it with recovery reports just that: one error, behind the last token, the
    bracket is inserted, and the value is the one of the completed text. *)
Theorem C75_unclosed_text : forall src a m v n k toks mi r,
  a = "]"%char \/ a = "}"%char ->
  loads float_of m (src ++ [N_of_ascii a]) = Ret (Loads (Returns v)) ->
  split_tokens k src json_spec = Ret (LexOk toks) -> mi <> 0%Z ->
  parse E n top toks true mi lexer_get_loc linecol_fmt = Ret r ->
  exists e q, unwrap r false = Raises [e] /\ unwrap r true = Returns v /\
    ei_op e = Some (Insert (String "'" (String a "'"))) /\
    ei_loc e = true_loc src q /\ q <= List.length src /\ Forall white (skipn q src).
Proof.
  intros src a m v n k toks mi r Ha Hv S Hm H.
  assert (exists toks0, written (src ++ [N_of_ascii a]) toks0 /\ is_json json_unescape json_int float_of toks0 v) as (toks0 & W & J)
    by (apply C62_text; eauto).
  assert (C : closer (N_of_ascii a)) by (destruct Ha as [-> | ->]; [left|right]; reflexivity).
  destruct (written_snoc _ _ W _ _ eq_refl C) as (toks1 & t & -> & W1 & P).
  assert (Pa : is_punct a t).
  { destruct Ha as [-> | ->]; destruct P as [[Q P]|[Q P]]; try exact P; discriminate. }
  pose proof (proj1 (json_adj json_unescape json_int float_of) _ _ J) as Ad. apply adj_app in Ad as [Ad _].
  destruct (lex_written src src toks1 W1 true Ad 0 (Loc 0 0 0) [] eq_refl ltac:(lia)) as (k' & toks' & L & Sm). cbn [app] in L.
  destruct (lexes src) as (k0 & toks2 & S0 & HL). pose proof (split_det _ _ _ _ _ S0 S) as [= ->]. clear S0.
  assert (toks = toks') as <-. { pose proof (split_det src k' k _ _ L S) as [= Q]. auto. }
  assert (J' : is_json json_unescape json_int float_of (toks ++ [t]) v).
  { apply (proj1 (JsonTextMain.json_same json_unescape json_int float_of) _ _ J). apply Forall2_app; auto. constructor; auto. split; reflexivity. }
  destruct (json_unclosed json_unescape json_int float_of a toks t v mi n r
    (fun p q Hp Hq => stream_inj src toks p q HL Hp Hq) Ha Pa J' Hm H) as (e & U1 & U2 & Le & O).
  destruct (reported src toks (List.length toks) HL ltac:(lia)) as (q & Hq & Lq & _ & K). destruct (K eq_refl) as [Wq _].
  exists e, q. rewrite Le. auto 10.
Qed.
End P.
Print Assumptions C75_unclosed_text.

(** [{"a": 1} and spaces *)
Example C75_case_text :
  let src := ascii_chars "[{""a"": 1}  " in
  (exists v, loads (fun x : list char => x) 60 (src ++ [N_of_ascii "]"]) = Ret (Loads (Returns v))) /\
  exists toks, split_tokens 60 src json_spec = Ret (LexOk toks) /\
    exists r, lexer_parse (json_E json_unescape json_int (fun x : list char => x)) 60 json_parser toks true = Ret r.
Proof.
  split; [eexists; vm_compute; reflexivity|]. eexists. split; [vm_compute; reflexivity|]. eexists. vm_compute. reflexivity.
Qed.
