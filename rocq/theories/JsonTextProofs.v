(** The lexer of json.py reads what JsonTextSpec.v says *)
From Verif Require Import Json JsonSpec JsonText JsonTextSpec JsonProofs.
From Coq Require Import Lia.
Local Open Scope N_scope.

Ltac bools := repeat match goal with
  | H : (_ && _)%bool = true |- _ => apply andb_true_iff in H; destruct H
  | H : (_ || _)%bool = true |- _ => apply orb_true_iff in H; destruct H
  | H : (_ <=? _) = true |- _ => apply N.leb_le in H
  | H : (_ <=? _) = false |- _ => apply N.leb_gt in H
  | H : (_ =? _) = true |- _ => apply N.eqb_eq in H
  | H : (_ =? _) = false |- _ => apply N.eqb_neq in H
  | H : (_ || _)%bool = false |- _ => apply orb_false_iff in H; destruct H
  end.

Lemma is_digit_spec c : is_digit c = true <-> digit c.
Proof. unfold is_digit, in_range, digit. rewrite andb_true_iff, !N.leb_le. reflexivity. Qed.
Lemma is_digit_not c : ~ digit c -> is_digit c = false.
Proof. intros H. destruct (is_digit c) eqn:Q; auto. apply is_digit_spec in Q. contradiction. Qed.
Lemma is_ws_spec c : is_ws c = true <-> white c.
Proof. unfold is_ws, white. rewrite !orb_true_iff, !N.eqb_eq. tauto. Qed.
Lemma is_ws_not c : ~ white c -> is_ws c = false.
Proof. intros H. destruct (is_ws c) eqn:Q; auto. apply is_ws_spec in Q. contradiction. Qed.
Lemma is_hex_spec c : is_hex c = true -> exists n, hexvalue c n /\ hex_of c = n.
Proof.
  unfold is_hex, is_digit, in_range, hexvalue, digit, hex_of. intros H. bools.
  - exists (c - 48). rewrite (proj2 (N.leb_le c 57)) by lia. split; [left; lia|reflexivity].
  - exists (c - 87). rewrite (proj2 (N.leb_gt c 57)), (proj2 (N.leb_gt c 70)) by lia. split; [right; lia|reflexivity].
  - exists (c - 55). rewrite (proj2 (N.leb_gt c 57)), (proj2 (N.leb_le c 70)) by lia. split; [right; lia|reflexivity].
Qed.
Lemma hex_is c n : hexvalue c n -> is_hex c = true /\ hex_of c = n.
Proof.
  unfold is_hex, is_digit, in_range, hexvalue, digit, hex_of.
  intros [[H1 H2]|[H0 [[H1 H2]|[H1 H2]]]]; rewrite !orb_true_iff, !andb_true_iff, !N.leb_le.
  - rewrite (proj2 (N.leb_le c 57)) by lia. split; [left; left; lia|lia].
  - rewrite (proj2 (N.leb_gt c 57)), (proj2 (N.leb_le c 70)) by lia. split; [right; lia|lia].
  - rewrite (proj2 (N.leb_gt c 57)), (proj2 (N.leb_gt c 70)) by lia. split; [left; right; lia|lia].
Qed.
Lemma hex4_is a b c d : hex4 a b c d = hex_of a * 4096 + hex_of b * 256 + hex_of c * 16 + hex_of d.
Proof. unfold hex4. lia. Qed.
Lemma is_plain_spec c : is_plain c = true -> c <> 34 /\ c <> 92 /\ 32 <= c <= 1114111.
Proof. unfold is_plain, in_range. intros H. bools; lia. Qed.
Lemma plain_is c : 32 <= c <= 1114111 -> c <> 34 -> c <> 92 -> is_plain c = true.
Proof.
  intros H1 H2 H3. unfold is_plain, in_range. rewrite !orb_true_iff, !andb_true_iff, !N.eqb_eq, !N.leb_le. lia.
Qed.
Lemma is_simple_spec e : is_simple e = true -> escape e (simple_of e).
Proof. unfold is_simple. intros H. bools; subst; constructor. Qed.
Lemma simple_is e c : escape e c -> is_simple e = true /\ simple_of e = c.
Proof. intros []; split; reflexivity. Qed.

(** ** span *)
Lemma span_split p s : List.length (firstn (span p s) s) = span p s /\
  Forall (fun c => p c = true) (firstn (span p s) s) /\ (span p s <= List.length s)%nat.
Proof.
  induction s as [|c s (IH1 & IH2 & IH3)]; [repeat split; constructor|]. cbn. destruct (p c) eqn:Q; cbn.
  - repeat split; [congruence|constructor; auto|lia].
  - repeat split; [constructor|lia].
Qed.
Definition hd_not (p : char -> bool) (s : list char) : Prop := match s with [] => True | c :: _ => p c = false end.
Lemma span_app p a b : Forall (fun c => p c = true) a -> hd_not p b -> span p (a ++ b) = List.length a.
Proof.
  intros Ha Hb. induction Ha as [|c a Hc Ha IH]; cbn.
  - destruct b as [|c b]; [reflexivity|]. cbn in *. rewrite Hb. reflexivity.
  - rewrite Hc, IH. reflexivity.
Qed.
Lemma span_pos p c s : p c = true -> (0 < span p (c :: s))%nat.
Proof. intros H. cbn. rewrite H. lia. Qed.

(** ** Numbers *)
Lemma decimal_digits ds n : decimal ds n -> Forall digit ds /\ ds <> [].
Proof.
  induction 1 as [d H|ds n d H [IH1 IH2] Hd].
  - split; [repeat constructor; auto; apply H|discriminate].
  - split; [apply Forall_app; split; [auto|repeat constructor; apply Hd]|]. intros Q. apply app_eq_nil in Q as [_ Q]. discriminate.
Qed.
Lemma digits_decimal ds : Forall digit ds -> ds <> [] -> is_digits ds.
Proof.
  induction ds as [|d ds IH] using rev_ind; intros H Hn; [congruence|].
  apply Forall_app in H as [H1 H2]. inversion H2 as [|? ? Hd _]; subst. destruct ds as [|d' ds].
  - exists (d - 48). apply de_one. exact Hd.
  - destruct IH as [n Hn']; auto; [discriminate|]. exists (10 * n + (d - 48)). apply de_more; auto.
Qed.
Lemma Forall_digits l : Forall (fun c => is_digit c = true) l <-> Forall digit l.
Proof. split; apply Forall_impl; intros c; apply is_digit_spec. Qed.

Lemma nat_len_sound s n : nat_len s = Some n -> exists m, plain_decimal (firstn n s) m /\ (0 < n <= List.length s)%nat.
Proof.
  destruct s as [|c s]; [discriminate|]. cbn. destruct (N.eqb_spec c 48) as [->|Hc].
  - intros [= <-]. exists 0. split; [|cbn; lia]. split; [apply (de_one 48); unfold digit; lia|left; reflexivity].
  - destruct (in_range 49 57 c) eqn:Q; [|discriminate]. intros [= <-]. unfold in_range in Q. bools.
    destruct (span_split is_digit s) as (L1 & L2 & L3). apply Forall_digits in L2.
    destruct (digits_decimal (c :: firstn (span is_digit s) s)) as [m Hm]; [constructor; auto; unfold digit; lia|discriminate|].
    exists m. split; [|cbn; lia]. split; [exact Hm|]. right. exists c. eexists. split; [reflexivity|exact Hc].
Qed.
Lemma int_len_sound s n : int_len s = Some n -> exists z, is_integer (firstn n s) z /\ (0 < n <= List.length s)%nat.
Proof.
  destruct s as [|c s]; [discriminate|]. unfold int_len. destruct (N.eqb_spec c 45) as [->|Hc].
  - destruct (nat_len s) as [m|] eqn:Q; [|discriminate]. intros [= <-].
    apply nat_len_sound in Q as (k & Q & L). exists (- Z.of_N k)%Z. split; [|cbn; lia]. apply int_minus. exact Q.
  - intros Q. apply nat_len_sound in Q as (k & Q & L). exists (Z.of_N k). split; [|exact L]. apply int_plus. exact Q.
Qed.
Lemma plain_decimal_hd ds n : plain_decimal ds n -> exists c ds', ds = c :: ds' /\ digit c /\ Forall digit ds'.
Proof.
  intros [H _]. apply decimal_digits in H as [H Hn]. destruct ds as [|c ds]; [congruence|]. inversion H; subst. eauto.
Qed.
Lemma nat_len_complete ds n rest : plain_decimal ds n -> hd_not is_digit rest -> nat_len (ds ++ rest) = Some (List.length ds).
Proof.
  intros H Hr. pose proof (plain_decimal_hd _ _ H) as (c & ds' & -> & Hc & Hd). destruct H as [_ [H|(d & ds0 & H & Hn)]].
  - injection H as -> ->. reflexivity.
  - injection H as <- <-. cbn. rewrite (proj2 (N.eqb_neq c 48)) by auto. unfold in_range, digit in *.
    rewrite (proj2 (N.leb_le 49 c)), (proj2 (N.leb_le c 57)) by lia. cbn. rewrite span_app; auto. apply Forall_digits. exact Hd.
Qed.
Lemma int_len_complete x z rest : is_integer x z -> hd_not is_digit rest -> int_len (x ++ rest) = Some (List.length x).
Proof.
  intros [ds n H|ds n H] Hr.
  - pose proof (plain_decimal_hd _ _ H) as (c & ds' & -> & Hc & _). unfold int_len. cbn [app].
    rewrite (proj2 (N.eqb_neq c 45)) by (unfold digit in Hc; lia). exact (nat_len_complete _ _ rest H Hr).
  - cbn [app int_len]. cbn. rewrite (nat_len_complete _ _ rest H Hr). reflexivity.
Qed.
Lemma digits_len_sound s n : digits_len s = Some n -> is_digits (firstn n s) /\ (0 < n <= List.length s)%nat.
Proof.
  unfold digits_len. destruct (span_split is_digit s) as (L1 & L2 & L3). destruct (span is_digit s) as [|k] eqn:Q; [discriminate|].
  intros [= <-]. split; [|lia]. apply digits_decimal; [apply Forall_digits; auto|].
  intros H. rewrite H in L1. discriminate.
Qed.
Lemma digits_len_complete ds rest : is_digits ds -> hd_not is_digit rest -> digits_len (ds ++ rest) = Some (List.length ds).
Proof.
  intros [n H] Hr. apply decimal_digits in H as [H Hn]. unfold digits_len. rewrite span_app; [|apply Forall_digits; auto|auto].
  destruct ds; [congruence|reflexivity].
Qed.
Lemma frac_len_sound s n : frac_len s = Some n -> is_fraction (firstn n s) /\ (0 < n <= List.length s)%nat.
Proof.
  destruct s as [|c s]; [discriminate|]. cbn. destruct (N.eqb_spec c 46) as [->|]; [|discriminate].
  destruct (digits_len s) as [m|] eqn:Q; [|discriminate]. intros [= <-]. apply digits_len_sound in Q as [Q L].
  split; [constructor; exact Q|cbn; lia].
Qed.
Lemma frac_len_complete f rest : is_fraction f -> hd_not is_digit rest -> frac_len (f ++ rest) = Some (List.length f).
Proof. intros [ds H] Hr. cbn. rewrite (digits_len_complete _ _ H Hr). reflexivity. Qed.
Lemma exp_len_sound s n : exp_len s = Some n -> is_exponent (firstn n s) /\ (0 < n <= List.length s)%nat.
Proof.
  destruct s as [|c s]; [discriminate|]. unfold exp_len. destruct ((c =? 101) || (c =? 69))%bool eqn:Q; [|discriminate].
  apply orb_true_iff in Q. rewrite !N.eqb_eq in Q. destruct s as [|c' s]; [discriminate|].
  destruct ((c' =? 45) || (c' =? 43))%bool eqn:Q'.
  - apply orb_true_iff in Q'. rewrite !N.eqb_eq in Q'. destruct (digits_len s) as [m|] eqn:D; [|discriminate]. intros [= <-].
    apply digits_len_sound in D as [D L]. split; [|cbn; lia]. cbn [Nat.add firstn]. apply ex_sign; auto. tauto.
  - destruct (digits_len (c' :: s)) as [m|] eqn:D; [|discriminate]. intros [= <-].
    apply digits_len_sound in D as [D L]. split; [|cbn in *; lia]. cbn [Nat.add firstn]. apply ex_plain; auto.
Qed.
Lemma exp_len_complete x rest : is_exponent x -> hd_not is_digit rest -> exp_len (x ++ rest) = Some (List.length x).
Proof.
  intros [e ds He H|e g ds He Hg H] Hr.
  - pose proof H as [n Hn]. apply decimal_digits in Hn as [Hn Hne]. destruct ds as [|d ds]; [congruence|].
    inversion Hn as [|? ? Hd _]; subst. unfold digit in Hd. unfold exp_len. cbn [app].
    replace ((e =? 101) || (e =? 69))%bool with true by (destruct He; subst; reflexivity).
    rewrite (proj2 (N.eqb_neq d 45)), (proj2 (N.eqb_neq d 43)) by lia. cbn [orb].
    rewrite (digits_len_complete _ _ H Hr : digits_len (d :: ds ++ rest) = _). reflexivity.
  - unfold exp_len. cbn [app]. replace ((e =? 101) || (e =? 69))%bool with true by (destruct He; subst; reflexivity).
    replace ((g =? 45) || (g =? 43))%bool with true by (destruct Hg; subst; reflexivity).
    rewrite (digits_len_complete _ _ H Hr). reflexivity.
Qed.
Lemma firstn_add (A : Type) n m (s : list A) : firstn (n + m) s = firstn n s ++ firstn m (skipn n s).
Proof. revert s. induction n as [|n IH]; intros [|c s]; cbn; [reflexivity|reflexivity|rewrite firstn_nil; reflexivity|rewrite IH; reflexivity]. Qed.
Lemma float_len_sound s n : float_len s = Some n -> is_floating (firstn n s) /\ (0 < n <= List.length s)%nat.
Proof.
  unfold float_len. destruct (int_len s) as [i|] eqn:I; [|discriminate]. apply int_len_sound in I as (z & I & L).
  destruct (frac_len (skipn i s)) as [f|] eqn:Q.
  - apply frac_len_sound in Q as [Q L']. rewrite skipn_length in L'.
    destruct (exp_len (skipn f (skipn i s))) as [e|] eqn:X; intros [= <-].
    + apply exp_len_sound in X as [X L'']. rewrite !skipn_length in L''. split; [|lia].
      rewrite !firstn_add. eapply fl_both; eauto.
    + split; [|lia]. rewrite firstn_add. eapply fl_frac; eauto.
  - destruct (exp_len (skipn i s)) as [e|] eqn:X; [|discriminate]. intros [= <-].
    apply exp_len_sound in X as [X L'']. rewrite !skipn_length in L''. split; [|lia]. rewrite firstn_add. eapply fl_exp; eauto.
Qed.
(** what can follow a token *)
Definition safe (rest : list char) : Prop :=
  match rest with [] => True | c :: _ => white c \/ is_punct_char c = true end.
Lemma punct_char_cases c : is_punct_char c = true -> c = 123 \/ c = 125 \/ c = 58 \/ c = 44 \/ c = 91 \/ c = 93.
Proof.
  unfold is_punct_char. change (ch "{") with 123. change (ch "}") with 125. change (ch ":") with 58.
  change (ch ",") with 44. change (ch "[") with 91. change (ch "]") with 93. intros H. bools; tauto.
Qed.
Ltac safecases H := destruct H as [H|H]; [unfold white in H|apply punct_char_cases in H];
  repeat match goal with H : _ \/ _ |- _ => destruct H end; subst.
Lemma safe_digit rest : safe rest -> hd_not is_digit rest.
Proof. destruct rest as [|c rest]; cbn; [auto|]. intros H. safecases H; reflexivity. Qed.
Lemma safe_frac rest : safe rest -> frac_len rest = None.
Proof. destruct rest as [|c rest]; cbn; [auto|]. intros H. safecases H; reflexivity. Qed.
Lemma safe_exp rest : safe rest -> exp_len rest = None.
Proof. destruct rest as [|c rest]; cbn; [auto|]. intros H. safecases H; reflexivity. Qed.
Lemma skipn_app_exact (A : Type) (a b : list A) : skipn (List.length a) (a ++ b) = b.
Proof. rewrite skipn_app, skipn_all, Nat.sub_diag. reflexivity. Qed.
Lemma firstn_app_exact (A : Type) (a b : list A) : firstn (List.length a) (a ++ b) = a.
Proof. rewrite firstn_app, firstn_all, Nat.sub_diag. cbn. apply app_nil_r. Qed.
Lemma frac_hd f rest : is_fraction f -> hd_not is_digit (f ++ rest).
Proof. intros []. reflexivity. Qed.
Lemma exp_hd f rest : is_exponent f -> hd_not is_digit (f ++ rest) /\ frac_len (f ++ rest) = None.
Proof. intros [e ds [-> | ->] _|e g ds [-> | ->] _ _]; split; reflexivity. Qed.
Lemma float_len_complete x rest : is_floating x -> safe rest -> float_len (x ++ rest) = Some (List.length x).
Proof.
  intros H Hr. pose proof (safe_digit _ Hr) as Hd. unfold float_len. destruct H as [i z f I Q|i z e I X|i z f e I Q X]; rewrite <- ?app_assoc.
  - rewrite (int_len_complete _ _ _ I (frac_hd _ _ Q)), skipn_app_exact, (frac_len_complete _ _ Q Hd), skipn_app_exact, (safe_exp _ Hr).
    rewrite app_length. reflexivity.
  - destruct (exp_hd e rest X) as [X1 X2].
    rewrite (int_len_complete _ _ _ I X1), skipn_app_exact, X2, (exp_len_complete _ _ X Hd). cbn. rewrite app_length. reflexivity.
  - destruct (exp_hd e rest X) as [X1 X2].
    rewrite (int_len_complete _ _ _ I (frac_hd _ _ Q)), skipn_app_exact, (frac_len_complete _ _ Q X1), skipn_app_exact, (exp_len_complete _ _ X Hd).
    rewrite !app_length. reflexivity.
Qed.
Lemma int_not_float x z rest : is_integer x z -> safe rest -> float_len (x ++ rest) = None.
Proof.
  intros I Hr. unfold float_len. rewrite (int_len_complete _ _ _ I (safe_digit _ Hr)), skipn_app_exact, (safe_frac _ Hr), (safe_exp _ Hr). reflexivity.
Qed.

(** ** Strings *)
Lemma body_len_sound : forall k s n, (List.length s < k)%nat -> body_len s = Some n ->
  exists cs, is_body (firstn n s) cs /\ nth_error s n = Some 34 /\ (n = 0%nat <-> cs = []).
Proof.
  induction k as [|k IH]; intros s n Hk H; [lia|]. destruct s as [|c s]; [discriminate|].
  cbn [List.length] in Hk.
  cbn [body_len] in H. destruct (N.eqb_spec c 34) as [->|Hc].
  { injection H as <-. exists []. split; [constructor|]. split; [reflexivity|]. tauto. }
  destruct (N.eqb_spec c 92) as [->|Hc'].
  - destruct s as [|e s]; [discriminate|]. cbn [List.length] in Hk. destruct (is_simple e) eqn:S.
    + destruct (body_len s) as [m|] eqn:B; [|discriminate]. injection H as <-.
      apply IH in B as (cs & B & N & _); [|lia]. exists (simple_of e :: cs). cbn [Nat.add firstn nth_error].
      split; [apply bo_escape; auto; apply is_simple_spec; auto|]. split; [exact N|]. split; discriminate.
    + destruct (N.eqb_spec e 117) as [->|]; [|discriminate].
      destruct s as [|h1 [|h2 [|h3 [|h4 s]]]]; try discriminate.
      destruct (is_hex h1 && is_hex h2 && is_hex h3 && is_hex h4)%bool eqn:Q; [|discriminate]. bools.
      destruct (body_len s) as [m|] eqn:B; [|discriminate]. injection H as <-. cbn [List.length] in Hk.
      apply IH in B as (cs & B & N & _); [|lia].
      destruct (is_hex_spec h1) as (n1 & X1 & _), (is_hex_spec h2) as (n2 & X2 & _), (is_hex_spec h3) as (n3 & X3 & _),
        (is_hex_spec h4) as (n4 & X4 & _); auto.
      exists (n1 * 4096 + n2 * 256 + n3 * 16 + n4 :: cs). cbn [Nat.add firstn nth_error].
      split; [apply bo_unicode; auto|]. split; [exact N|]. split; discriminate.
  - destruct (is_plain c) eqn:P; [|discriminate]. apply is_plain_spec in P as (P1 & P2 & P3).
    destruct (body_len s) as [m|] eqn:B; [|discriminate]. injection H as <-.
    apply IH in B as (cs & B & N & _); [|lia]. exists (c :: cs). cbn [Nat.add firstn nth_error].
    split; [constructor; auto|]. split; [exact N|]. split; discriminate.
Qed.
Lemma body_len_complete w cs rest : is_body w cs -> body_len (w ++ 34 :: rest) = Some (List.length w).
Proof.
  induction 1 as [|c w s H1 H2 H3 _ IH|e c w s He _ IH|a b c d na nb nc nd w s Ha Hb Hc Hd _ IH]; cbn [app].
  - reflexivity.
  - cbn [body_len]. rewrite (proj2 (N.eqb_neq c 34)), (proj2 (N.eqb_neq c 92)), (plain_is c), IH by auto. reflexivity.
  - apply simple_is in He as [He _]. cbn [body_len]. cbn [N.eqb Pos.eqb]. rewrite He, IH. reflexivity.
  - apply hex_is in Ha as [Ha _], Hb as [Hb _], Hc as [Hc _], Hd as [Hd _].
    cbn [body_len]. cbn [N.eqb Pos.eqb]. change (is_simple 117) with false. cbv iota. rewrite Ha, Hb, Hc, Hd, IH. reflexivity.
Qed.
Lemma unescape_body w cs : is_body w cs -> json_unescape w = cs.
Proof.
  induction 1 as [|c w s H1 H2 H3 _ IH|e c w s He _ IH|a b c d na nb nc nd w s Ha Hb Hc Hd _ IH].
  - reflexivity.
  - cbn [json_unescape]. rewrite (proj2 (N.eqb_neq c 92)), IH by auto. reflexivity.
  - apply simple_is in He as [He Hv]. cbn [json_unescape]. cbn [N.eqb Pos.eqb]. rewrite He, IH, Hv. reflexivity.
  - apply hex_is in Ha as [Ha Va], Hb as [Hb Vb], Hc as [Hc Vc], Hd as [Hd Vd].
    cbn [json_unescape]. cbn [N.eqb Pos.eqb]. change (is_simple 117) with false. cbv iota.
    rewrite Ha, Hb, Hc, Hd, IH, hex4_is. cbn [andb]. congruence.
Qed.
Lemma body_nonempty w cs : is_body w cs -> (w = [] <-> cs = []).
Proof. intros []; split; intros; try discriminate; reflexivity. Qed.
Lemma digits_of_decimal ds n : decimal ds n -> digits_of ds = Z.of_N n.
Proof.
  induction 1 as [d H|ds n d _ IH H]; unfold digit in H.
  - cbn. lia.
  - assert (S : digits_of (ds ++ [d]) = (digits_of ds * 10 + Z.of_N (d - 48))%Z).
    { unfold digits_of. rewrite fold_left_app. reflexivity. }
    rewrite S, IH. lia.
Qed.
Lemma int_of_integer x z : is_integer x z -> json_int x = z.
Proof.
  intros [ds n H|ds n H].
  - pose proof (plain_decimal_hd _ _ H) as (c & ds' & -> & Hc & _). unfold json_int.
    rewrite (proj2 (N.eqb_neq c 45)) by (unfold digit in Hc; lia). apply digits_of_decimal, H.
  - cbn. rewrite (digits_of_decimal ds n) by apply H. reflexivity.
Qed.
