(** C64: how many expected values an error lists. *)
From Verif Require Import LL DiagSpec CostSpec CostProofs ExpLen PropsCost PropsLL PropsDiag PropsFirst FirstSpec PropsTotal Locations DiagProofs PropsRecovery LangInv Examples.
From Coq Require Import Lia.

(** Without Delay: never more than the parser has parts, whatever the input. *)
Theorem C64_no_delay :
  forall T V (E : env T V) A (g : gram T V A) w, wf_env E -> wf g -> no_delay g -> size_le g w ->
  forall n s mi get fmt locof r b errs, cohere get s locof -> lay_ok E g s locof ->
  parse E n g s false mi get fmt = Ret r -> unwrap r b = Raises errs ->
  exists e, errs = [e] /\ List.length (ei_expected e) <= w.
Proof.
  intros T V E A g w HE Hg Hd Hw n s mi get fmt locof r b errs Hco Hl H Hu.
  destruct (C43_plain_diagnostics T V E A g s mi get fmt locof b HE Hg Hco Hl) as (_ & D & _).
  destruct (proj1 (D errs) (ex_intro _ n (ex_intro _ r (conj H Hu)))) as (c & l & X & HD & ->).
  eexists. split; [reflexivity|]. simpl. apply (flat_names E s locof A g _ _ _ HD w Hd Hw).
Qed.
Print Assumptions C64_no_delay.

(** Recursive parsers without attempt: linear in the length of the input. *)
Theorem C64_linear :
  forall T V (E : env T V) A (g : gram T V A), wf_env E -> wf g -> no_attempt g -> (forall d, no_attempt (E d)) ->
  bounded_size E g -> bounded_depth E g ->
  exists k, forall n s mi get fmt locof r b errs, cohere get s locof -> lay_ok E g s locof ->
  parse E n g s false mi get fmt = Ret r -> unwrap r b = Raises errs ->
  exists e, errs = [e] /\ List.length (ei_expected e) <= k * (List.length s + 1).
Proof.
  intros T V E A g HE Hg Ha HA (B & Hs & HB) (R & Hr & HR).
  exists (B * umax B R + B * umax B R * (R + 2)). intros n s mi get fmt locof r b errs Hco Hl H Hu.
  destruct (C43_plain_diagnostics T V E A g s mi get fmt locof b HE Hg Hco Hl) as (_ & D & _).
  destruct (proj1 (D errs) (ex_intro _ n (ex_intro _ r (conj H Hu)))) as (c & l & X & HD & ->).
  eexists. split; [reflexivity|]. simpl.
  pose proof (diag_lim E HE B R HB HR HA s locof A g _ _ _ HD Hg Ha ltac:(lia) B R Hs ltac:(lia) Hr) as K.
  cbn [ExpLen.lim] in K. pose proof (ubound_mono E B HB R (S R) ltac:(lia)) as M. fold (umax B R) in M.
  unfold reading in K. rewrite Nat.sub_0_r in K.
  set (U := umax B R) in *. set (L := List.length s) in *. destruct c.
  - assert (B * U * ((R + 2) * L + R) <= B * U * (R + 2) * (L + 1)) by (rewrite <- (Nat.mul_assoc (B * U)); apply Nat.mul_le_mono_l; lia). nia.
  - assert (B * ubound B R <= B * U) by (apply Nat.mul_le_mono_l; exact M). nia.
Qed.
Print Assumptions C64_linear.

(** The same for the first error that recovery reports. *)
Theorem C64_linear_recovering :
  forall T V (E : env T V) A (g : gram T V A), wf_env E -> wf g -> no_attempt g -> (forall d, no_attempt (E d)) ->
  bounded_size E g -> bounded_depth E g -> single_withs E g ->
  exists k, forall n s mi get fmt locof r errs, cohere get s locof -> lay_ok E g s locof ->
  parse E n g s true mi get fmt = Ret r -> unwrap r false = Raises errs ->
  exists e tl, errs = e :: tl /\ (ei_op e <> None -> List.length (ei_expected e) <= k * (List.length s + 1)).
Proof.
  intros T V E A g HE Hg Ha HA HB HR Hsw.
  destruct (C64_linear T V E A g HE Hg Ha HA HB HR) as [k K]. exists k.
  intros n s mi get fmt locof r errs Hco Hl H Hu.
  destruct (plain_fails _ _ _ _ _ _ _ mi _ _ _ _ _ H Hu) as (r0 & e0 & H0 & Hu0).
  destruct (K _ _ _ _ _ _ _ _ _ Hco Hl H0 Hu0) as (e & -> & He).
  assert (Haf : attempt_free E g).
  { apply (everywhere_gall E (fun B q => ~ is_attempt B q)); [exact HA|exact Ha]. }
  destruct (C12_first_error _ _ _ _ _ _ _ _ _ _ _ _ _ _ _ _ HE Hg Hco Hl Haf Hsw H0 Hu0 H)
    as (x0 & x1 & tl & Hx & Hx1 & _ & _ & L3).
  injection Hx as <-. rewrite Hu in Hx1. injection Hx1 as ->. exists x1, tl. split; [reflexivity|].
  intros Ho. rewrite (L3 Ho). exact He.
Qed.
Print Assumptions C64_linear_recovering.

(** *** The bound is attained: names are repeated *)
(** e = 'a' e? 'b'? *)
Definition rep_e : ex_gram Z :=
  GFmap (seq (ex_sym "a") (seq (GMaybe (GDelay 0 : ex_gram Z)) (GMaybe (ex_sym "b")))) (fun _ => Ret 0%Z).
Definition rep_E : env char ex_V := fun _ => rep_e.
Definition rep_names (k : nat) : list string := "'a'"%string :: repeat "'b'"%string k.
Lemma repeat_snoc X (x : X) k : repeat x k ++ [x] = repeat x (S k).
Proof. induction k as [|k IH]; [reflexivity|]. simpl in *. rewrite IH. reflexivity. Qed.

Section Steps.
Context {T : Type} {V : nat -> Type} (E : env T V) (s : list T) (at_ : nat -> loc).
Lemma seq_stay A B C (p : gram T V A) (q : gram T V B) (mg : A -> B -> C) m i v j X w Y :
  diag E s at_ _ p m i (DSucc v j X) -> diag E s at_ _ q m j (DSucc w j Y) ->
  diag E s at_ _ (GSeq p q mg) m i (DSucc (mg v w) j (X ++ Y)).
Proof.
  intros H1 H2. pose proof (dg_seq E s at_ _ _ _ p q mg m i v j X _ H1 H2) as H. cbn [d_after on_dvalue] in H. rewrite Nat.ltb_irrefl in H. exact H.
Qed.
Lemma seq_move A B C (p : gram T V A) (q : gram T V B) (mg : A -> B -> C) m i v j X w k Y : j < k ->
  diag E s at_ _ p m i (DSucc v j X) -> diag E s at_ _ q m j (DSucc w k Y) ->
  diag E s at_ _ (GSeq p q mg) m i (DSucc (mg v w) k Y).
Proof.
  intros Hk H1 H2. pose proof (dg_seq E s at_ _ _ _ p q mg m i v j X _ H1 H2) as H. cbn [d_after on_dvalue] in H.
  apply Nat.ltb_lt in Hk. rewrite Hk in H. exact H.
Qed.
End Steps.
Lemma rep_diag N k : forall i, i + S k = N ->
  diag rep_E (repeat (ex_ch "a") N) (true_loc (repeat (ex_ch "a") N)) _ (GDelay 0 : ex_gram Z) 0 i (DSucc 0%Z N (rep_names (S k))).
Proof.
  set (s := repeat (ex_ch "a") N).
  assert (HE : nth_error s N = None) by (apply nth_error_None; unfold s; rewrite repeat_length; lia).
  assert (HB : diag rep_E s (true_loc s) _ (GMaybe (ex_sym "b")) 0 N (DSucc None N ["'b'"%string])).
  { eapply dg_maybe_none. apply dg_sym_no. intros t Ht. congruence. }
  assert (HA : forall i, i < N -> diag rep_E s (true_loc s) _ (ex_sym "a") 0 i (DSucc (ex_ch "a") (i + 1) [])).
  { intros i Hi. apply dg_sym; [apply nth_error_repeat; exact Hi|reflexivity]. }
  assert (HM : diag rep_E s (true_loc s) _ (GMaybe (GDelay 0 : ex_gram Z)) 0 N (DSucc None N ["'a'"%string])).
  { eapply dg_maybe_none. apply (dg_delay rep_E s (true_loc s) 0). apply dg_fmap_fail, dg_seq_fail, dg_sym_no. intros t Ht. congruence. }
  induction k as [|k IH]; intros i Hi; apply (dg_delay rep_E s (true_loc s) 0); eapply dg_fmap; try reflexivity.
  - assert (N = i + 1) as HN by lia.
    change (rep_names 1) with ([] ++ (["'a'"%string] ++ ["'b'"%string])).
    apply (seq_stay rep_E s (true_loc s) _ _ _ (ex_sym "a")); [rewrite HN; apply HA; lia|].
    apply (seq_stay rep_E s (true_loc s) _ _ _ (GMaybe (GDelay 0 : ex_gram Z))); eassumption.
  - eapply (seq_move rep_E s (true_loc s) _ _ _ (ex_sym "a")); [|apply HA; lia|]; [lia|].
    replace (rep_names (S (S k))) with (rep_names (S k) ++ ["'b'"%string]) by (unfold rep_names; cbn [app]; rewrite repeat_snoc; reflexivity).
    eapply (seq_stay rep_E s (true_loc s) _ _ _ (GMaybe (GDelay 0 : ex_gram Z))); [|exact HB].
    apply dg_maybe. apply IH. lia.
Qed.
Definition rep_top : ex_gram Z := seql (GDelay 0 : ex_gram Z) (ex_sym "c").
(** On k + 1 times 'a' the error lists 'b' k + 1 times. *)
Theorem C64_names_repeat : forall k, exists n r e,
  scannerless_parse rep_E n rep_top (repeat (ex_ch "a") (S k)) false = Ret r /\ unwrap r false = Raises [e] /\
  ei_expected e = ("'a'" :: repeat "'b'" (S k) ++ ["'c'"])%string.
Proof.
  intros k. set (s := repeat (ex_ch "a") (S k)).
  assert (HE : wf_env rep_E) by (intros d; solve_gall). assert (HG : wf rep_top) by solve_gall.
  destruct (C43_plain_diagnostics char ex_V rep_E Z rep_top s 5 scannerless_get_loc linecol_fmt (true_loc s) false HE HG
    (scannerless_cohere s) (or_introl (scannerless_exact s))) as (_ & D & _).
  assert (HD : diag rep_E s (true_loc s) Z rep_top 0 0 (DFail true (true_loc s (S k)) (rep_names (S k) ++ ["'c'"%string]))).
  { refine (dg_seq rep_E s (true_loc s) _ _ _ (GDelay 0 : ex_gram Z) (ex_sym "c") (fun l _ => l) 0 0 0%Z (S k) (rep_names (S k))
      (DFail false (true_loc s (S k)) ["'c'"%string]) (rep_diag (S k) k 0 eq_refl) _).
    apply dg_sym_no. intros t Ht. assert (nth_error s (S k) = None) by (apply nth_error_None; unfold s; rewrite repeat_length; lia). congruence. }
  destruct (proj2 (D _) (ex_intro _ _ (ex_intro _ _ (ex_intro _ _ (conj HD eq_refl))))) as (n & r & H1 & H2).
  exists n, r. eexists. split; [exact H1|]. split; [exact H2|reflexivity].
Qed.
Print Assumptions C64_names_repeat.

(** *** With attempt: exponentially many *)
(** e = attempt('(' e ')') | attempt('(' e ']') *)
Definition long_e : ex_gram Z :=
  GAlt (GAttempt (seqr (ex_sym "(") (seql (GDelay 0) (ex_sym ")")))) (GAttempt (seqr (ex_sym "(") (seql (GDelay 0) (ex_sym "]")))).
Definition long_E : env char ex_V := fun _ => long_e.
Lemma long_diag N k : forall i, i + k = N -> exists l,
  diag long_E (repeat (ex_ch "(") N) (true_loc (repeat (ex_ch "(") N)) _ (GDelay 0 : ex_gram Z) 0 i
    (DFail false l (repeat "'('"%string (2 ^ S k))).
Proof.
  set (s := repeat (ex_ch "(") N).
  induction k as [|k IH]; intros i Hi.
  - assert (HE : nth_error s i = None) by (apply nth_error_None; unfold s; rewrite repeat_length; lia).
    assert (HF : forall x, diag long_E s (true_loc s) _ (GAttempt (seqr (ex_sym "(") (seql (GDelay 0 : ex_gram Z) (ex_sym x)))) 0 i
      (DFail false (true_loc s i) ["'('"%string])).
    { intros x. eapply dg_attempt_fail, dg_seq_fail, dg_sym_no. intros t Ht. congruence. }
    exists (true_loc s i). apply (dg_delay long_E s (true_loc s) 0).
    exact (dg_alt_r long_E s (true_loc s) _ _ _ 0 i _ _ _ (HF ")"%char) (HF "]"%char)).
  - destruct (IH (i + 1) ltac:(lia)) as [l HK].
    assert (HF : forall x, diag long_E s (true_loc s) _ (GAttempt (seqr (ex_sym "(") (seql (GDelay 0 : ex_gram Z) (ex_sym x)))) 0 i
      (DFail false l (repeat "'('"%string (2 ^ S k)))).
    { intros x. eapply dg_attempt_fail.
      pose proof (dg_seq long_E s (true_loc s) _ _ _ (ex_sym "(") (seql (GDelay 0 : ex_gram Z) (ex_sym x)) (fun _ r => r) 0 i (ex_ch "(") (i + 1) []
        (DFail false l (repeat "'('"%string (2 ^ S k)))) as H. cbn in H. apply H.
      - apply dg_sym; [apply nth_error_repeat; lia|reflexivity].
      - apply dg_seq_fail. exact HK. }
    exists l. apply (dg_delay long_E s (true_loc s) 0).
    pose proof (dg_alt_r long_E s (true_loc s) _ _ _ 0 i _ _ _ (HF ")"%char) (HF "]"%char)) as H. cbn [d_else] in H.
    rewrite <- repeat_app in H. replace (2 ^ S k + 2 ^ S k) with (2 ^ S (S k)) in H by (simpl; lia). exact H.
Qed.
Theorem C64_attempt_exponential : forall k, exists n r e,
  scannerless_parse long_E n (GDelay 0 : ex_gram Z) (repeat (ex_ch "(") k) false = Ret r /\ unwrap r false = Raises [e] /\
  ei_expected e = repeat "'('"%string (2 ^ (k + 1)).
Proof.
  intros k. set (s := repeat (ex_ch "(") k).
  assert (HE : wf_env long_E) by (intros d; solve_gall).
  destruct (C43_plain_diagnostics char ex_V long_E Z (GDelay 0) s 5 scannerless_get_loc linecol_fmt (true_loc s) false HE (conj I I)
    (scannerless_cohere s) (or_introl (scannerless_exact s))) as (_ & D & _).
  destruct (long_diag k k 0 eq_refl) as [l HD].
  destruct (proj2 (D _) (ex_intro _ _ (ex_intro _ _ (ex_intro _ _ (conj HD eq_refl))))) as (n & r & H1 & H2).
  exists n, r. eexists. split; [exact H1|]. split; [exact H2|]. cbn [ei_expected]. f_equal. f_equal. lia.
Qed.
Print Assumptions C64_attempt_exponential.

(** The expressions of the example: *)
Theorem C64_case : exists k, forall n s r errs,
  scannerless_parse ex_E n ex_top s false = Ret r -> unwrap r false = Raises errs ->
  exists e, errs = [e] /\ List.length (ei_expected e) <= k * (List.length s + 1).
Proof.
  destruct (C64_linear char ex_V ex_E Z ex_top ex_wf_E ex_wf) as [k K].
  - solve_gall.
  - intros d. solve_gall.
  - destruct (size_exists ex_top) as [a Ha]; [solve_gall|]. destruct (size_exists ex_expr) as [b Hb]; [solve_gall|].
    exists (a + b). split; [eapply size_mono; [|exact Ha]; lia|]. intros d. eapply size_mono; [|exact Hb]. lia.
  - exists 1. assert (L : forall d, left_depth ex_E 0 (ex_E d)) by (intros d d' H; exact (ex_left d' H)).
    split; [intros d _; apply L|]. intros d. apply left_mono, L.
  - exists k. intros n s r errs. apply (K n s 5%Z scannerless_get_loc linecol_fmt (true_loc s));
      [apply scannerless_cohere|left; apply scannerless_exact].
Qed.
Print Assumptions C64_case.
