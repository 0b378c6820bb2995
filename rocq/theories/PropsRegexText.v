(** Property C70, continued: how patterns are written (RegexText.v). *)
From Verif Require Import RegexText RegexTextProofs PropsRegex Json.
From Verif Require Readme.
From Verif Require Import Examples Spec.
From Coq Require Import Lia.

(** ** The reader accepts exactly the texts of patterns, and reads them as described *)
Theorem C70_syntax : forall verbose pat r,
  compile verbose pat = Some r <-> pattern_text verbose (ascii_chars pat) r.
Proof. exact compile_iff. Qed.
(** a text has at most one reading *)
Theorem C70_unambiguous : forall verbose pat r r',
  pattern_text verbose (ascii_chars pat) r -> pattern_text verbose (ascii_chars pat) r' -> r = r'.
Proof. intros v pat r r' H H'. apply compile_iff in H, H'. congruence. Qed.

(** ** A pattern without special characters matches itself, and nothing else *)
Fixpoint lits (w : list char) : regex :=
  match w with [] => REps | c :: w => followed (RSet false [IChar c]) (lits w) end.
Lemma lits_text w : Forall (ordinary false) w -> forall k, sequence false k w (lits w) k.
Proof.
  induction 1 as [|c w O F IH]; intros k; cbn [lits]; [apply sq_end; left; reflexivity|].
  change (c :: w) with ([] ++ [c] ++ [] ++ [] ++ w). eapply sq_more; [left; reflexivity|apply am_char; exact O|left; reflexivity|apply rp_once|apply IH].
Qed.
Lemma lits_named w k name : ~ named_group k name (lits w).
Proof.
  rewrite <- named_group_iff. induction w as [|c w IH]; cbn [lits]; [auto|]. unfold followed.
  destruct (lits w) eqn:Q; cbn in *; auto.
Qed.
Lemma lits_matches sp dg w : forall u, matches sp dg (lits w) u <-> u = w.
Proof.
  assert (L : forall c u, matches sp dg (RSet false [IChar c]) u <-> u = [c]).
  { intros c u. split.
    - intros M. inversion M as [|n l x H| | | | | | |]; subst. cbn in H. destruct (N.eqb_spec x c) as [->|]; [reflexivity|discriminate].
    - intros ->. constructor. cbn. rewrite N.eqb_refl. reflexivity. }
  induction w as [|c w IH]; intros u; cbn [lits].
  - split; [intros M; inversion M; reflexivity|intros ->; constructor].
  - assert (C : matches sp dg (RCat (RSet false [IChar c]) (lits w)) u <-> u = c :: w).
    { split.
      - intros M. inversion M as [| | |a b w1 w2 M1 M2| | | | |]; subst. apply L in M1 as ->. apply IH in M2 as ->. reflexivity.
      - intros ->. change (c :: w) with ([c] ++ w). constructor; [apply L|apply IH]; reflexivity. }
    unfold followed. destruct (lits w) eqn:Q; try exact C. destruct w as [|c' w]; [apply L|].
    exfalso. cbn in Q. unfold followed in Q. destruct (lits w); discriminate.
Qed.
Theorem C70_literal : forall space digit pat s pos, Forall (ordinary false) (ascii_chars pat) -> pos <= List.length s ->
  let w := ascii_chars pat in
  ((exists rest, skipn pos s = w ++ rest) ->
     re_match space digit (pattern false pat) 0 s pos = Some (pos + List.length w, Some w)) /\
  ((forall rest, skipn pos s <> w ++ rest) -> re_match space digit (pattern false pat) 0 s pos = None).
Proof.
  intros sp dg pat s pos F P w.
  assert (C : pattern false pat = lits w).
  { unfold pattern. rewrite (proj2 (compile_iff false pat (lits w))); [reflexivity|]. split.
    - exists 1. apply ch_one, lits_text, F.
    - intros k1 k2 name N. destruct (lits_named _ _ _ N). }
  rewrite C. split.
  - intros [rest Q]. destruct (re_match sp dg (lits w) 0 s pos) as [[e v]|] eqn:R.
    + apply C70_match in R as (B & M & V); [|exact P]. apply lits_matches in M. rewrite (V eq_refl), M. f_equal. f_equal.
      apply (f_equal (@List.length _)) in M. rewrite firstn_length, skipn_length in M. unfold char in *. lia.
    + exfalso. apply (proj1 (C70_no_match sp dg _ 0 s pos P) R (pos + List.length w)).
      * apply (f_equal (@List.length _)) in Q. rewrite skipn_length, app_length in Q. unfold char in *. lia.
      * apply lits_matches. rewrite Q. replace (pos + List.length w - pos) with (List.length w) by lia.
        rewrite firstn_app, Nat.sub_diag, firstn_all. cbn. apply app_nil_r.
  - intros N. apply C70_no_match; [exact P|]. intros e B M. apply lits_matches in M.
    apply (N (skipn (e - pos) (skipn pos s))). rewrite <- M. symmetry. apply firstn_skipn.
Qed.
Print Assumptions C70_syntax.
Print Assumptions C70_unambiguous.
Print Assumptions C70_literal.

(** ** Cases: white space counts unless VERBOSE is set *)
Notation sp := Readme.ascii_space.
Notation dg := Readme.ascii_digit.
Example C70_case_verbose :
  (re_match sp dg (pattern false "a b") 0 (ex_str "a b") 0, re_match sp dg (pattern false "a b") 0 (ex_str "ab") 0,
   re_match sp dg (pattern true "a b") 0 (ex_str "a b") 0, re_match sp dg (pattern true "a b") 0 (ex_str "ab") 0)
  = (Some (3, Some (ex_str "a b")), None, None, Some (2, Some (ex_str "ab"))).
Proof. vm_compute. reflexivity. Qed.
Example C70_case_literal : Forall (ordinary false) (ascii_chars "if x").
Proof.
  repeat constructor; try discriminate; cbn; intros H; repeat destruct H as [H|H]; try discriminate; exact H.
Qed.
(** two groups with the same name, a name that is no identifier, {0} *)
Example C70_case_refused_names :
  map (compile false) ["(?P<x>a)(?P<x>b)"; "(?P<1>a)"; "a{0}"; "\U00110000"]%string = repeat None 4.
Proof. vm_compute. reflexivity. Qed.
