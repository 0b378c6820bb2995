(** What the errors of the JSON parser say, from characters (C53, C62). *)
From Verif Require Import Fuel Locations LexProofs Lexer Json JsonSpec JsonText JsonTextSpec JsonProofs JsonTextProofs JsonTextMain
  PropsJson PropsLexer PropsErrJson EditSpec ExpAll.
From Coq Require Import Lia.

Lemma json_lex_wf src : lex_wf json_spec src.
Proof.
  intros p e g Hp H. rewrite spec_shift in H. destruct (json_spec (skipn p src) 0) as [[n g']|] eqn:S; [|discriminate].
  apply spec_sound in S as [L _]. rewrite skipn_length in L. injection H as <- _. lia.
Qed.

(** the characters of a token *)
Definition stands_for (t : token) (x : list char) : Prop := tk_kind t = "_"%string \/ spelling t x.

Lemma run_splits src q l e : lex_run json_spec src q l e -> e = List.length src -> q <= List.length src ->
  forall p, p <= List.length (flat_map (piece_token src) l) ->
  exists o, q <= o <= List.length src /\ tiled (slice src q o) (firstn p (flat_map (piece_token src) l)) /\
    match nth_error (flat_map (piece_token src) l) p with
    | Some t => tk_start t = true_loc src o /\ exists x rest, skipn o src = x ++ rest /\ x <> [] /\ stands_for t x
    | None => Forall white (skipn o src) /\
        match rev (flat_map (piece_token src) l) with t :: _ => tk_end t = true_loc src o | [] => o = q end
    end.
Proof.
  induction 1 as [q|q e g l q' Hq Hs Hr IH]; intros He Hle p Hp.
  - cbn in Hp. assert (p = 0) as -> by lia. exists q. split; [lia|]. cbn. rewrite slice_nil. split; [constructor|].
    rewrite skipn_all2 by lia. split; [constructor|reflexivity].
  - pose proof Hs as Hs'. apply json_lex_wf in Hs' as L; [|lia]. specialize (IH He ltac:(lia)).
    assert (G : q < e /\ match g with None => Forall white (slice src q e)
      | Some (k, v) => k = "_"%string \/ forall l l', spelling (Token k v l l') (slice src q e) end).
    { rewrite spec_shift in Hs. destruct (json_spec (skipn q src) 0) as [[n g']|] eqn:Q; [|discriminate].
      injection Hs as <- <-. apply spec_sound in Q as [Q1 Q2]. split; [lia|].
      unfold slice. replace (q + n - q) with n by lia. exact Q2. }
    destruct G as [Lt G]. destruct g as [[k v]|]; cbn [flat_map piece_token app] in *.
    + destruct p as [|p].
      * exists q. split; [lia|]. rewrite slice_nil. split; [constructor|]. cbn [nth_error tk_start]. split; [reflexivity|].
        exists (slice src q e), (skipn e src). split; [apply slice_skipn; lia|]. split.
        { intros Q. apply (f_equal (@List.length _)) in Q. rewrite ExpAll.slice_length in Q by lia. cbn in Q. lia. }
        destruct G as [G|G]; [left; exact G|right; apply G].
      * cbn [List.length] in Hp. destruct (IH p ltac:(lia)) as (o & K1 & K2 & K3). exists o. split; [lia|]. cbn [firstn nth_error rev]. split.
        { rewrite <- (slice_app src q e o) by lia. constructor; [|exact K2]. destruct G as [G|G]; [left; exact G|right; apply G]. }
        destruct (nth_error (flat_map (piece_token src) l) p) as [t|] eqn:N; [exact K3|]. destruct K3 as [K3 K4]. split; [exact K3|].
        destruct (rev (flat_map (piece_token src) l)) as [|t ts]; cbn [app]; [|exact K4]. cbn. rewrite K4. reflexivity.
    + destruct (rev (flat_map (piece_token src) l)) as [|t ts] eqn:R.
      * assert (N : flat_map (piece_token src) l = []).
        { apply (f_equal (@rev _)) in R. rewrite rev_involutive in R. exact R. }
        rewrite N in *. cbn in Hp. assert (p = 0) as -> by lia.
        destruct (IH 0 ltac:(cbn; lia)) as (o & K1 & _ & K3 & K4). cbn in K4. subst o. exists q. split; [lia|]. rewrite slice_nil.
        split; [constructor|]. cbn. split; [|reflexivity]. rewrite (slice_skipn src q e) by lia. apply Forall_app. auto.
      * destruct (IH p Hp) as (o & K1 & K2 & K3). exists o. split; [lia|]. split.
        { rewrite <- (slice_app src q e o) by lia. constructor; auto. }
        exact K3.
Qed.

Section P.
Context {F : Type}.
Variable float_of : list char -> F.
Notation isj := (is_json json_unescape json_int float_of).

(** Where the error of [loads] stands in the text, and what it says: the characters before
    it are the beginning of a JSON text; what follows are not the characters of a token
    that could come next - or only white space, and the text is not complete -; and the
    names in the error stand for exactly the tokens that could. *)
Theorem C62_errors : forall src n errs, loads float_of n src = Ret (Loads (Raises errs)) ->
  exists toks p before after e,
    split_tokens n src json_spec = Ret (LexOk toks) /\ p <= List.length toks /\
    errs = [e] /\ src = before ++ after /\ ei_loc e = true_loc src (List.length before) /\
    written before (firstn p toks) /\
    (exists rest v, isj (firstn p toks ++ rest) v) /\
    (forall t, nth_error toks p = Some t -> (exists x rest, after = x ++ rest /\ x <> [] /\ stands_for t x) /\
       ~ exists rest v, isj (firstn p toks ++ t :: rest) v) /\
    (p = List.length toks -> Forall white after /\ ~ exists v, isj (firstn p toks) v) /\
    says_next json_unescape json_int float_of (firstn p toks) (ei_expected e).
Proof.
  intros src n errs H. unfold loads, json_loads in H.
  destruct (split_tokens n src json_spec) as [[toks|l]| |] eqn:S; try discriminate. cbn in H.
  destruct (lexer_parse (json_E json_unescape json_int float_of) n json_parser toks false) as [r| |] eqn:Q; try discriminate. cbn in H. injection H as H.
  destruct (C53_json_exact json_unescape json_int float_of toks n r false errs Q H)
    as (p & e & -> & K1 & K2 & K3 & K4 & K5 & K6).
  destruct (proj1 (C28_lexer_tiles json_spec src (json_lex_wf src) toks) (ex_intro _ n S)) as (l & R & _ & T).
  destruct (run_splits src 0 l _ R eq_refl ltac:(lia) p ltac:(rewrite <- T; exact K2)) as (o & O1 & O2 & O3).
  rewrite <- T in O2, O3. rewrite firstn_slice in O2 || (unfold slice in O2; cbn [skipn] in O2; rewrite Nat.sub_0_r in O2).
  assert (Lo : List.length (firstn o src) = o) by (rewrite firstn_length; lia).
  exists toks, p, (firstn o src), (skipn o src), e. split; [reflexivity|]. split; [exact K2|]. split; [reflexivity|].
  split; [symmetry; apply firstn_skipn|]. rewrite Lo. split; [|split; [|split; [exact K3|split; [|split; [|exact K6]]]]].
  - rewrite K1. unfold loc_from_stream. destruct (nth_error toks p) as [t|]; [apply O3|]. destruct O3 as [_ O3].
    destruct (rev toks) as [|t ts] eqn:N; [|exact O3]. subst o. rewrite true_loc_0.
    apply (f_equal (@List.length _)) in N. rewrite rev_length in N. cbn in N. assert (p = 0) as -> by lia. reflexivity.
  - apply tiled_written; [exact O2|]. destruct K3 as (rest & v & K3).
    apply (proj1 (json_kinds json_unescape json_int float_of)) in K3. apply Forall_app in K3. exact (proj1 K3).
  - intros t N. rewrite N in O3. split; [apply O3|]. intros (rest & v & J).
    assert (p < List.length toks) by (apply nth_error_Some; congruence). apply (K4 ltac:(lia)). exists rest, v.
    replace (firstn (p + 1) toks) with (firstn p toks ++ [t]); [rewrite <- app_assoc; exact J|].
    clear - N. revert p N. induction toks as [|t0 toks IH]; intros [|p] N; cbn in *; try discriminate.
    + injection N as ->. reflexivity.
    + f_equal. auto.
  - intros ->. rewrite firstn_all. split; [|auto]. rewrite (proj2 (nth_error_None toks (List.length toks))) in O3 by lia. apply O3.
Qed.
Print Assumptions C62_errors.
End P.

(** [[1, 2 3]]: the error is at the 3, and a comma or the closing bracket could stand there. *)
Theorem C62_errors_case : exists e,
  loads (fun x : list char => x) 200 (ascii_chars "[1, 2 3]") = Ret (Loads (Raises [e])) /\
  ei_loc e = Loc 6 0 6 /\ ei_expected e = ["','"; "']'"]%string.
Proof. eexists. split; [vm_compute; reflexivity|]. split; reflexivity. Qed.
