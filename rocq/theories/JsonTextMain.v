(** Lexing and parsing of JSON texts *)
From Verif Require Import Json JsonSpec JsonText JsonTextSpec JsonProofs JsonTextProofs.
From Coq Require Import Lia.
Local Open Scope N_scope.

Lemma spec_shift src pos : json_spec src pos =
  match json_spec (skipn pos src) 0%nat with Some (n, g) => Some ((pos + n)%nat, g) | None => None end.
Proof.
  unfold json_spec. cbn [skipn Nat.add]. destruct (skipn pos src) as [|c s]; [reflexivity|].
  destruct (is_ws c); [reflexivity|]. destruct (is_punct_char c); [reflexivity|].
  destruct (starts (ascii_chars "true") (c :: s)); [reflexivity|].
  destruct (starts (ascii_chars "false") (c :: s)); [reflexivity|].
  destruct (starts (ascii_chars "null") (c :: s)); [reflexivity|].
  destruct (float_len (c :: s)); [reflexivity|]. destruct (int_len (c :: s)); [reflexivity|].
  destruct (string_len (c :: s)); reflexivity.
Qed.
Lemma starts_firstn x : forall s, starts x s = true -> firstn (List.length x) s = x /\ (List.length x <= List.length s)%nat.
Proof.
  induction x as [|a x IH]; intros [|b s] H; cbn in *; try discriminate; [split; auto; lia|split; auto; lia|].
  apply andb_true_iff in H as [H1 H2]. apply N.eqb_eq in H1 as ->. apply IH in H2 as [H2 H3]. rewrite H2. split; [auto|lia].
Qed.
Lemma spec_sound s n g : json_spec s 0%nat = Some (n, g) -> (0 < n <= List.length s)%nat /\
  match g with
  | None => Forall white (firstn n s)
  | Some (k, v) => k = "_"%string \/ forall l l', spelling (Token k v l l') (firstn n s)
  end.
Proof.
  unfold json_spec. cbn [skipn Nat.add]. destruct s as [|c s]; [discriminate|].
  destruct (is_ws c) eqn:W.
  { intros [= <- <-]. pose proof (span_pos is_ws c s W). destruct (span_split is_ws (c :: s)) as (_ & L2 & L3).
    split; [split; assumption|]. eapply Forall_impl; [|exact L2]. intros a. apply is_ws_spec. }
  destruct (is_punct_char c) eqn:P.
  { intros [= <- <-]. split; [cbn; lia|]. right. intros l l'. cbn [firstn]. apply punct_char_cases in P.
    destruct P as [->|[->|[->|[->|[->| ->]]]]];
      [apply (sp_punct _ "{"%char)|apply (sp_punct _ "}"%char)|apply (sp_punct _ ":"%char)|apply (sp_punct _ ","%char)|
       apply (sp_punct _ "["%char)|apply (sp_punct _ "]"%char)]; try (split; reflexivity); cbn; tauto. }
  destruct (starts (ascii_chars "true") (c :: s)) eqn:S1.
  { apply starts_firstn in S1 as [S1 L]. intros [= <- <-]. split; [cbn in L |- *; lia|]. right. intros l l'.
    change (spelling (Token "bool" (firstn 4 (c :: s)) l l') (firstn 4 (c :: s))).
    change (firstn 4 (c :: s) = ascii_chars "true") in S1. rewrite S1. apply sp_true; reflexivity. }
  destruct (starts (ascii_chars "false") (c :: s)) eqn:S2.
  { apply starts_firstn in S2 as [S2 L]. intros [= <- <-]. split; [cbn in L |- *; lia|]. right. intros l l'.
    change (spelling (Token "bool" (firstn 5 (c :: s)) l l') (firstn 5 (c :: s))).
    change (firstn 5 (c :: s) = ascii_chars "false") in S2. rewrite S2. apply sp_false; reflexivity. }
  destruct (starts (ascii_chars "null") (c :: s)) eqn:S3.
  { apply starts_firstn in S3 as [S3 L]. intros [= <- <-]. split; [cbn in L |- *; lia|]. right. intros l l'.
    change (spelling (Token "null" (firstn 4 (c :: s)) l l') (firstn 4 (c :: s))).
    change (firstn 4 (c :: s) = ascii_chars "null") in S3. rewrite S3. apply sp_null; reflexivity. }
  destruct (float_len (c :: s)) as [m|] eqn:Fl.
  { intros [= <- <-]. apply float_len_sound in Fl as [Fl L]. split; [exact L|]. right. intros l l'.
    apply (sp_float (Token "float" (firstn m (c :: s)) l l')); [reflexivity|exact Fl]. }
  destruct (int_len (c :: s)) as [m|] eqn:Il.
  { intros [= <- <-]. apply int_len_sound in Il as (z & Il & L). split; [exact L|]. right. intros l l'.
    apply (sp_integer (Token "integer" (firstn m (c :: s)) l l') z); [reflexivity|exact Il]. }
  destruct (string_len (c :: s)) as [m|] eqn:Sl.
  { intros [= <- <-]. cbn [string_len] in Sl. destruct (N.eqb_spec c 34) as [->|]; [|discriminate].
    destruct (body_len s) as [k|] eqn:B; [|discriminate]. assert (k = m /\ m <> 0%nat) as [-> Hm] by (destruct k; [discriminate|split; congruence]).
    apply (body_len_sound (S (List.length s))) in B as (cs & B & Q & Hn); [|lia].
    assert (L : (m < List.length s)%nat) by (apply nth_error_Some; congruence).
    split; [cbn; lia|]. right. intros l l'. cbn [skipn].
    assert (E : @firstn char (m + 2) (34 :: s) = 34 :: firstn m s ++ [34]).
    { replace (m + 2)%nat with (S (m + 1)) by lia. cbn [firstn]. f_equal. rewrite firstn_add. f_equal.
      apply nth_error_split in Q as (a & b & -> & <-). rewrite skipn_app_exact. reflexivity. }
    match goal with |- spelling _ ?x => change x with (@firstn char (m + 2) (34 :: s)) end. rewrite E. apply (sp_string (Token "string" (firstn m s) l l') cs); [reflexivity|exact B|tauto]. }
  intros [= <- <-]. split; [cbn; lia|]. left. reflexivity.
Qed.

(** *** complete *)
Definition num_start (c : char) : Prop := c = 45 \/ digit c.
Lemma integer_start x z : is_integer x z -> exists c x', x = c :: x' /\ num_start c.
Proof.
  intros [ds n H|ds n H].
  - apply plain_decimal_hd in H as (c & ds' & -> & H & _). exists c, ds'. split; [auto|right; auto].
  - exists 45, ds. split; [auto|left; auto].
Qed.
Lemma floating_start x : is_floating x -> exists c x', x = c :: x' /\ num_start c.
Proof. intros [i z f I Q|i z e I X|i z f e I Q X]; apply integer_start in I as (c & x' & -> & I); cbn; eauto. Qed.
Lemma num_spec c s : num_start c -> json_spec (c :: s) 0%nat =
  match float_len (c :: s) with
  | Some n => Some (n, Some ("float"%string, firstn n (c :: s)))
  | None => match int_len (c :: s) with
    | Some n => Some (n, Some ("integer"%string, firstn n (c :: s)))
    | None => match string_len (c :: s) with
      | Some n => Some ((n + 2)%nat, Some ("string"%string, firstn n s))
      | None => Some (1%nat, Some ("_"%string, [c])) end end end.
Proof.
  intros H. assert (Hc : c = 45 \/ (48 <= c <= 57)) by exact H. unfold json_spec. cbn [skipn Nat.add].
  rewrite is_ws_not by (unfold white; lia).
  assert (P : is_punct_char c = false).
  { destruct (is_punct_char c) eqn:Q; [|auto]. apply punct_char_cases in Q. lia. }
  rewrite P.
  assert (S : forall a x, 97 <= a -> starts (a :: x) (c :: s) = false).
  { intros a x Ha. cbn. rewrite (proj2 (N.eqb_neq a c)) by lia. reflexivity. }
  change (ascii_chars "true") with [116; 114; 117; 101]. change (ascii_chars "false") with [102; 97; 108; 115; 101].
  change (ascii_chars "null") with [110; 117; 108; 108]. rewrite !S by lia. reflexivity.
Qed.
Lemma quote_spec (w : list char) n : string_len (@cons char 34 w) = Some n ->
  json_spec (@cons char 34 w) 0%nat = Some ((n + 2)%nat, Some ("string"%string, firstn n w)).
Proof.
  intros H. unfold json_spec. cbn [skipn Nat.add].
  replace (float_len (@cons char 34 w)) with (@None nat) by reflexivity.
  replace (int_len (@cons char 34 w)) with (@None nat) by reflexivity. rewrite H. reflexivity.
Qed.
Lemma spec_complete t x rest : spelling t x -> safe rest \/ tk_kind t = "punct"%string ->
  json_spec (x ++ rest) 0%nat = Some (List.length x, Some (tk_kind t, tk_value t)).
Proof.
  intros H Hr. destruct H as [a Ha [H1 H2]|Hk Hv|Hk Hv|Hk Hv|z Hk Hv|Hk Hv|s Hk Hv Hn].
  - rewrite H1, H2. cbn in Ha. repeat destruct Ha as [<-|Ha]; try contradiction; reflexivity.
  - rewrite Hk, Hv. reflexivity.
  - rewrite Hk, Hv. reflexivity.
  - rewrite Hk, Hv. reflexivity.
  - destruct Hr as [Hr|Hr]; [|rewrite Hk in Hr; discriminate]. rewrite Hk.
    pose proof (integer_start _ _ Hv) as (c & x' & E & Hc).
    pose proof (num_spec c (x' ++ rest) Hc) as N. rewrite (app_comm_cons x' rest c : c :: x' ++ rest = (c :: x') ++ rest) in N. rewrite <- E in N.
    rewrite N, (int_not_float _ _ _ Hv Hr), (int_len_complete _ _ _ Hv (safe_digit _ Hr)), firstn_app_exact. reflexivity.
  - destruct Hr as [Hr|Hr]; [|rewrite Hk in Hr; discriminate]. rewrite Hk.
    pose proof (floating_start _ Hv) as (c & x' & E & Hc).
    pose proof (num_spec c (x' ++ rest) Hc) as N. rewrite (app_comm_cons x' rest c : c :: x' ++ rest = (c :: x') ++ rest) in N. rewrite <- E in N.
    rewrite N, (float_len_complete _ _ Hv Hr), firstn_app_exact. reflexivity.
  - rewrite Hk. cbn [app]. rewrite <- app_assoc. cbn [app].
    assert (B : string_len (@cons char 34 (tk_value t ++ 34 :: rest)) = Some (List.length (tk_value t))).
    { cbn [string_len N.eqb Pos.eqb]. rewrite (body_len_complete _ _ rest Hv).
      destruct (tk_value t) eqn:V; [|reflexivity]. exfalso. apply Hn. apply (body_nonempty _ _ Hv). reflexivity. }
    etransitivity; [apply (quote_spec _ _ B)|].
    rewrite firstn_app_exact. cbn [List.length]. rewrite app_length. cbn [List.length].
    replace (List.length (tk_value t) + 2)%nat with (S (List.length (tk_value t) + 1)) by lia. reflexivity.
Qed.
Lemma spelling_hd t x : spelling t x -> exists c x', x = c :: x' /\ is_ws c = false /\
  (tk_kind t = "punct"%string -> is_punct_char c = true).
Proof.
  intros [a Ha [H1 H2]|Hk Hv|Hk Hv|Hk Hv|z Hk Hv|Hk Hv|s Hk Hv Hn]; unfold is_kind in *; try rewrite Hk.
  - cbn in Ha. repeat destruct Ha as [<-|Ha]; try contradiction; do 2 eexists; repeat split; reflexivity.
  - do 2 eexists. split; [reflexivity|]. split; [reflexivity|discriminate].
  - do 2 eexists. split; [reflexivity|]. split; [reflexivity|discriminate].
  - do 2 eexists. split; [reflexivity|]. split; [reflexivity|discriminate].
  - apply integer_start in Hv as (c & x' & -> & Hv). do 2 eexists. split; [reflexivity|]. split; [|discriminate].
    apply is_ws_not. unfold white. unfold num_start, digit in Hv. lia.
  - apply floating_start in Hv as (c & x' & -> & Hv). do 2 eexists. split; [reflexivity|]. split; [|discriminate].
    apply is_ws_not. unfold white. unfold num_start, digit in Hv. lia.
  - do 2 eexists. split; [reflexivity|]. split; [reflexivity|discriminate].
Qed.

(** ** The whole source *)
Definition same (t t' : token) : Prop := tk_kind t = tk_kind t' /\ tk_value t = tk_value t'.
(** what the lexer produces *)
Inductive tiled : list char -> list token -> Prop :=
| ti_end : tiled [] []
| ti_white w rest toks : Forall white w -> tiled rest toks -> tiled (w ++ rest) toks
| ti_token t x rest toks : tk_kind t = "_"%string \/ spelling t x -> tiled rest toks -> tiled (x ++ rest) (t :: toks).

Lemma skipn_skipn_add (A : Type) a b (s : list A) : skipn a (skipn b s) = skipn (b + a) s.
Proof. revert s. induction b as [|b IH]; intros [|c s]; cbn; auto. apply skipn_nil. Qed.
Lemma lex_tiled src : forall n pos l acc r, lex_loop json_spec src n pos l acc = Ret r ->
  exists toks, r = LexOk (acc ++ toks) /\ tiled (skipn pos src) toks.
Proof.
  induction n as [|n IH]; intros pos l acc r H; [discriminate|]. cbn [lex_loop] in H.
  destruct (Nat.ltb_spec pos (List.length src)) as [Hp|Hp].
  - rewrite spec_shift in H.
    destruct (json_spec (skipn pos src) 0%nat) as [[m g]|] eqn:S.
    2:{ exfalso. unfold json_spec in S. cbn [skipn Nat.add] in S.
        destruct (skipn pos src) as [|c s] eqn:Q; [apply (f_equal (@List.length _)) in Q; rewrite skipn_length in Q; cbn in Q; lia|].
        destruct (is_ws c), (is_punct_char c), (starts (ascii_chars "true") (c :: s)), (starts (ascii_chars "false") (c :: s)),
          (starts (ascii_chars "null") (c :: s)), (float_len (c :: s)), (int_len (c :: s)), (string_len (c :: s)); discriminate. }
    apply spec_sound in S as [L S]. apply IH in H as (toks & -> & T).
    rewrite <- skipn_skipn_add in T. rewrite <- (firstn_skipn m (skipn pos src)).
    destruct g as [[k v]|].
    + exists (Token k v l (lex_end_loc src pos (pos + m) l) :: toks). rewrite <- app_assoc. split; [reflexivity|].
      apply ti_token; auto. destruct S as [-> |S]; [left; reflexivity|right; apply S].
    + exists toks. split; [reflexivity|]. apply ti_white; auto.
  - injection H as <-. exists []. rewrite app_nil_r. split; [reflexivity|].
    rewrite skipn_all2 by lia. constructor.
Qed.
Lemma tiled_written s toks : tiled s toks -> Forall (fun t => tk_kind t <> "_"%string) toks -> written s toks.
Proof.
  induction 1 as [|w rest toks Hw _ IH|t x rest toks Ht _ IH]; intros HF.
  - apply wr_end. constructor.
  - specialize (IH HF). destruct IH as [w' H'|w' t x rest toks H' Hs Hr].
    + apply wr_end. apply Forall_app; auto.
    + rewrite app_assoc. apply wr_token; auto. apply Forall_app; auto.
  - inversion HF as [|? ? Hn HF']; subst. destruct Ht as [Ht|Ht]; [contradiction|].
    apply (wr_token [] t x rest toks); auto.
Qed.

(** *** adjacent tokens *)
Definition isp (t : token) : bool := String.eqb (tk_kind t) "punct".
Fixpoint adj (p : bool) (toks : list token) : Prop :=
  match toks with [] => True | t :: l => (p = true \/ isp t = true) /\ adj (isp t) l end.
Fixpoint endp (p : bool) (toks : list token) : bool :=
  match toks with [] => p | t :: l => endp (isp t) l end.
Lemma adj_app p a b : adj p (a ++ b) <-> adj p a /\ adj (endp p a) b.
Proof. revert p. induction a as [|t a IH]; intros p; cbn; [tauto|]. rewrite IH. tauto. Qed.
Lemma punct_isp a t : is_punct a t -> isp t = true.
Proof. intros [H _]. unfold isp. rewrite H. reflexivity. Qed.

Section J.
Context {F : Type}.
Variable unescape : list char -> list char.
Variable int_of : list char -> Z.
Variable float_of : list char -> F.
Notation isj := (is_json unescape int_of float_of).
Notation els := (elements unescape int_of float_of).
Notation mems := (members unescape int_of float_of).
Lemma json_adj :
  (forall w v, isj w v -> adj true w) /\ (forall w vs, els w vs -> adj true w) /\ (forall w kvs, mems w kvs -> adj true w).
Proof.
  apply (json_mutind F unescape int_of float_of); intros;
    repeat match goal with H : is_punct _ _ |- _ => apply punct_isp in H end; cbn [adj];
    rewrite ?adj_app; cbn [adj]; rewrite ?adj_app; cbn [adj];
    repeat match goal with H : isp _ = true |- _ => rewrite H in * end; repeat split; auto.
Qed.
(** the kinds in a text *)
Definition good_kind (t : token) : Prop := tk_kind t <> "_"%string.
Lemma json_kinds :
  (forall w v, isj w v -> Forall good_kind w) /\ (forall w vs, els w vs -> Forall good_kind w) /\
  (forall w kvs, mems w kvs -> Forall good_kind w).
Proof.
  assert (P : forall a t, is_punct a t -> good_kind t) by (intros a t [H _]; unfold good_kind; rewrite H; discriminate).
  assert (S : forall t, is_kind "string" t -> good_kind t) by (intros t H; unfold good_kind; rewrite H; discriminate).
  apply (json_mutind F unescape int_of float_of); intros; rewrite ?app_comm_cons;
    repeat first [apply Forall_app; split | apply Forall_cons | apply Forall_nil]; eauto.
  destruct H as [H|H|H|H _|H _|H]; unfold good_kind; rewrite H; discriminate.
Qed.
(** only kinds and values matter *)
Lemma F2_app_l A B (R : A -> B -> Prop) a b l : Forall2 R (a ++ b) l -> exists a' b', l = a' ++ b' /\ Forall2 R a a' /\ Forall2 R b b'.
Proof. intros H. apply Forall2_app_inv_l in H as (a' & b' & H1 & H2 & ->). eauto. Qed.
Lemma F2_cons_l A B (R : A -> B -> Prop) x b l : Forall2 R (x :: b) l -> exists y b', l = y :: b' /\ R x y /\ Forall2 R b b'.
Proof. intros H. inversion H; subst. eauto. Qed.
Lemma F2_nil_l A B (R : A -> B -> Prop) l : Forall2 R [] l -> l = [].
Proof. intros H. inversion H. auto. Qed.
Lemma same_punct a t t' : same t t' -> is_punct a t -> is_punct a t'.
Proof. intros [H1 H2] [H3 H4]. split; congruence. Qed.
Lemma same_kind k t t' : same t t' -> is_kind k t -> is_kind k t'.
Proof. intros [H1 H2] H3. unfold is_kind in *. congruence. Qed.
Ltac f2 := repeat match goal with
  | H : Forall2 _ (_ :: _) _ |- _ => apply F2_cons_l in H; destruct H as (? & ? & -> & ? & H)
  | H : Forall2 _ (_ ++ _) _ |- _ => apply F2_app_l in H; destruct H as (? & ? & -> & ? & H)
  | H : Forall2 _ [] _ |- _ => apply F2_nil_l in H; subst
  end.
Lemma json_same :
  (forall w v, isj w v -> forall w', Forall2 same w w' -> isj w' v) /\
  (forall w vs, els w vs -> forall w', Forall2 same w w' -> els w' vs) /\
  (forall w kvs, mems w kvs -> forall w', Forall2 same w w' -> mems w' kvs).
Proof.
  apply (json_mutind F unescape int_of float_of).
  - intros t v H w' HS. f2. apply json_scalar. destruct H0 as [E1 E2]. rewrite ?E2 in *.
    destruct H as [H|H|H|H Hv|H Hv|H]; rewrite ?E2 in *; unfold is_kind in *; rewrite E1 in H; econstructor; eauto.
  - intros t t' H1 H2 w' HS. f2. apply json_list_empty; eapply same_punct; eauto.
  - intros t w vs t' H1 _ IH H2 w' HS. f2. apply json_list_some; eauto using same_punct.
  - intros t t' H1 H2 w' HS. f2. apply json_dict_empty; eapply same_punct; eauto.
  - intros t w kvs d t' H1 _ IH H2 Hd w' HS. f2. eapply json_dict_some; eauto using same_punct.
  - intros w v _ IH w' HS. apply el_one; auto.
  - intros w v c w1 vs _ IH Hc _ IH' w' HS. f2. apply el_more; eauto using same_punct.
  - intros k c w v H1 H2 _ IH w' HS. f2. match goal with H : same k _ |- _ => pose proof H as [_ E]; rewrite E end.
    apply me_one; eauto using same_punct, same_kind.
  - intros k c w v c' w1 kvs H1 H2 _ IH H3 _ IH' w' HS. f2.
    match goal with H : same k _ |- _ => pose proof H as [_ E]; rewrite E end.
    apply me_more; eauto using same_punct, same_kind.
Qed.
End J.

(** *** lexing a written text *)
Lemma white_spec c w rest : white c -> Forall white w -> hd_not is_ws rest ->
  json_spec ((c :: w) ++ rest) 0%nat = Some (List.length (c :: w), None).
Proof.
  intros Hc Hw Hr. unfold json_spec. cbn [skipn Nat.add app]. rewrite (proj2 (is_ws_spec c) Hc).
  change (c :: w ++ rest) with ((c :: w) ++ rest). rewrite span_app; auto.
  constructor; [apply is_ws_spec; auto|]. eapply Forall_impl; [|exact Hw]. intros a. apply is_ws_spec.
Qed.
Lemma written_hd s toks : written s toks -> adj false toks -> safe s.
Proof.
  intros [w Hw|w t x rest l Hw Hs _] Ha.
  - destruct w as [|c w]; [exact I|]. inversion Hw; subst. left. auto.
  - destruct w as [|c w]; [|inversion Hw; subst; left; auto]. destruct Ha as [[Ha|Ha] _]; [discriminate|].
    apply spelling_hd in Hs as (c & x' & -> & _ & Hp). right. apply Hp. apply String.eqb_eq in Ha. exact Ha.
Qed.
Lemma lex_written src : forall s toks, written s toks -> forall p, adj p toks -> forall pos l acc,
  skipn pos src = s -> (pos <= List.length src)%nat ->
  exists n toks', lex_loop json_spec src n pos l acc = Ret (LexOk (acc ++ toks')) /\ Forall2 same toks toks'.
Proof.
  assert (Wh : forall w rest, Forall white w -> hd_not is_ws rest ->
    forall pos l acc (P : list token -> Prop), skipn pos src = w ++ rest -> (pos <= List.length src)%nat ->
      (forall pos l, skipn pos src = rest -> (pos <= List.length src)%nat ->
         exists n toks', lex_loop json_spec src n pos l acc = Ret (LexOk (acc ++ toks')) /\ P toks') ->
      exists n toks', lex_loop json_spec src n pos l acc = Ret (LexOk (acc ++ toks')) /\ P toks').
  { intros w rest Hw Hr pos l acc P Hs Hp K. destruct w as [|c w]; [apply K; auto|].
    inversion Hw as [|? ? Hc Hw']; subst.
    assert (L : (List.length (skipn pos src) = List.length (c :: w) + List.length rest)%nat) by (rewrite Hs, app_length; reflexivity).
    rewrite skipn_length in L. cbn [List.length] in L.
    destruct (K (pos + List.length (c :: w))%nat (lex_end_loc src pos (pos + List.length (c :: w)) l)) as (n & toks' & H1 & H2).
    { rewrite <- skipn_skipn_add, Hs. apply skipn_app_exact. }
    { cbn [List.length]. lia. }
    exists (S n), toks'. split; [|exact H2]. cbn [lex_loop]. destruct (Nat.ltb_spec pos (List.length src)); [|lia].
    rewrite spec_shift, Hs, white_spec by auto. exact H1. }
  induction 1 as [w Hw|w t x rest toks Hw Hs Hr IH]; intros p Ha pos l acc Hpos Hle.
  - apply (Wh w []); [exact Hw|exact I|rewrite app_nil_r; exact Hpos|exact Hle|].
    intros pos' l' Hp' Hl'. exists 1%nat, []. split; [|constructor]. cbn [lex_loop].
    destruct (Nat.ltb_spec pos' (List.length src)) as [Q|Q]; [|rewrite app_nil_r; reflexivity].
    apply (f_equal (@List.length _)) in Hp'. rewrite skipn_length in Hp'. cbn in Hp'. lia.
  - pose proof (spelling_hd _ _ Hs) as (c & x' & Hx & Hc & _).
    apply (Wh w (x ++ rest)); [exact Hw|rewrite Hx; exact Hc|exact Hpos|exact Hle|].
    intros pos' l' Hp' Hl'. destruct Ha as [_ Ha].
    assert (L : (List.length (skipn pos' src) = List.length x + List.length rest)%nat) by (rewrite Hp', app_length; reflexivity).
    rewrite skipn_length in L. assert (Hx' : (0 < List.length x)%nat) by (rewrite Hx; cbn; lia).
    destruct (IH _ Ha (pos' + List.length x)%nat (lex_end_loc src pos' (pos' + List.length x) l')
      (acc ++ [Token (tk_kind t) (tk_value t) l' (lex_end_loc src pos' (pos' + List.length x) l')])) as (n & toks' & H1 & H2).
    { rewrite <- skipn_skipn_add, Hp'. apply skipn_app_exact. }
    { lia. }
    exists (S n). eexists. split.
    + cbn [lex_loop]. destruct (Nat.ltb_spec pos' (List.length src)); [|lia].
      rewrite spec_shift, Hp', (spec_complete t).
      * cbv zeta. rewrite H1. rewrite <- app_assoc. reflexivity.
      * exact Hs.
      * destruct (isp t) eqn:Q; [right; apply String.eqb_eq; exact Q|left; eapply written_hd; eauto].
    + cbn [app]. constructor; auto. split; reflexivity.
Qed.
