(** C26, C27  Layout combinators. *)
From Verif Require Export LayoutSpec PropsSingle.
From Verif Require Import Locations Examples PropsLexer.

Section Layout.
Context {T : Type} {V : nat -> Type}.
Variable E : env T V.
Notation gram := (gram T V).
Implicit Types s : list T.

Lemma res_in_set {A} c (r : res T A) : res_in c r (res_set_ctx c r).
Proof.
  destruct r as [o|e|k]; simpl; auto; [repeat split|].
  repeat split. induction (rc_reps k); simpl; constructor; auto. repeat split.
Qed.
Lemma res_in_fun {A} c (r r' : res T A) : res_in c r r' -> r' = res_set_ctx c r.
Proof.
  destruct r as [o|e|k], r' as [o'|e'|k']; simpl; try tauto.
  - intros (H1 & H2 & H3 & H4 & H5). unfold ok_set_ctx. destruct o'; simpl in *. congruence.
  - congruence.
  - intros (H1 & H2 & H3 & H4 & H5). unfold rec_set_ctx.
    assert (rc_reps k' = map (rep_set_ctx c) (rc_reps k)).
    { induction H5 as [|r r' l l' (K1 & K2 & K3 & K4 & K5 & K6 & K7 & K8 & K9) HF IH]; simpl; auto.
      f_equal; auto. unfold rep_set_ctx. destruct r'; simpl in *; congruence. }
    destruct k'; simpl in *; congruence.
Qed.
Lemma res_in_iff {A} c (r r' : res T A) : res_in c r r' <-> r' = res_set_ctx c r.
Proof. split; [apply res_in_fun|intros ->; apply res_in_set]. Qed.
Lemma sres_in_iff {A} c (r r' : sres T A) :
  res_in c (sres_res r) (sres_res r') <-> r' = sres_set_ctx c r.
Proof.
  rewrite res_in_iff. destruct r, r'; simpl; split; congruence.
Qed.

Lemma one_call {A} (p g : gram A) s i c c0 hf hF :
  (forall n, fast E (S n) g s i c = obind (fast E n p s i c0) (fun r => Ret (hf r))) ->
  (forall n ins rem, full E (S n) g s i c ins rem = obind (full E n p s i c0 ins rem) (fun r => Ret (hF r))) ->
  (forall r, runs E g s i c r <-> exists r0, runs E p s i c0 r0 /\ r = hf r0) /\
  (forall x, raises E g s i c x <-> raises E p s i c0 x) /\
  forall ins rem,
  (forall r, recovers E g s i c ins rem r <-> exists r0, recovers E p s i c0 ins rem r0 /\ r = hF r0) /\
  (forall x, raises_rec E g s i c ins rem x <-> raises_rec E p s i c0 ins rem x).
Proof.
  intros Hf HF. split; [|split; [|intros ins rem; split]].
  - intros r. split.
    + intros [[|n] K]; [discriminate|]. rewrite Hf in K. apply obind_ret in K as (r0 & K1 & K2).
      injection K2 as <-. exists r0. split; [exists n; auto|auto].
    + intros (r0 & [n K] & ->). exists (S n). rewrite Hf, K. reflexivity.
  - intros x. split.
    + intros [[|n] K]; [discriminate|]. rewrite Hf in K. exists n.
      destruct (fast E n p s i c0); simpl in K; congruence.
    + intros [n K]. exists (S n). rewrite Hf, K. reflexivity.
  - intros r. split.
    + intros [[|n] K]; [discriminate|]. rewrite HF in K. apply obind_ret in K as (r0 & K1 & K2).
      injection K2 as <-. exists r0. split; [exists n; auto|auto].
    + intros (r0 & [n K] & ->). exists (S n). rewrite HF, K. reflexivity.
  - intros x. split.
    + intros [[|n] K]; [discriminate|]. rewrite HF in K. exists n.
      destruct (full E n p s i c0 ins rem); simpl in K; congruence.
    + intros [n K]. exists (S n). rewrite HF, K. reflexivity.
Qed.

Lemma runs_in_restore {A} (p g : gram A) s i c c0 c1 :
  (forall n, fast E (S n) g s i c = obind (fast E n p s i c0) (fun r => Ret (sres_set_ctx c1 r))) ->
  (forall n ins rem, full E (S n) g s i c ins rem = obind (full E n p s i c0 ins rem) (fun r => Ret (res_set_ctx c1 r))) ->
  runs_in E g p s i c c0 (Some c1).
Proof.
  intros Hf HF. destruct (one_call p g s i c c0 _ _ Hf HF) as (H1 & H2 & H3).
  split; [|split; [auto|intros ins rem; split]].
  - intros r. rewrite H1. split; intros (r0 & K & Hr); exists r0; split; auto; apply sres_in_iff; auto.
  - intros r. destruct (H3 ins rem) as [-> _]. split; intros (r0 & K & Hr); exists r0; split; auto; apply res_in_iff; auto.
  - apply H3.
Qed.
Lemma runs_in_keep {A} (p g : gram A) s i c c0 :
  (forall n, fast E (S n) g s i c = fast E n p s i c0) ->
  (forall n ins rem, full E (S n) g s i c ins rem = full E n p s i c0 ins rem) ->
  runs_in E g p s i c c0 None.
Proof.
  intros Hf HF. destruct (one_call p g s i c c0 (fun r => r) (fun r => r)) as (H1 & H2 & H3).
  - intros n. rewrite Hf. destruct (fast E n p s i c0); reflexivity.
  - intros n ins rem. rewrite HF. destruct (full E n p s i c0 ins rem); reflexivity.
  - split; [|split; [auto|auto]].
    intros r. rewrite H1. split; intros (r0 & K & Hr); exists r0; split; auto; subst; auto.
    destruct r0, r; simpl in Hr; congruence.
Qed.
Lemma only_fails_const {A} (g : gram A) s i c e :
  (forall n, fast E (S n) g s i c = Ret (SErr e)) ->
  (forall n ins rem, full E (S n) g s i c ins rem = Ret (RErr e)) ->
  only_fails E g s i c e.
Proof.
  intros Hf HF. split; [|split; [|intros ins rem; split]].
  - intros r. split; [intros [[|n] K]; [discriminate|]; rewrite Hf in K; congruence|].
    intros ->. exists 1. apply Hf.
  - intros x [[|n] K]; [discriminate|]. rewrite Hf in K; discriminate.
  - intros r. split; [intros [[|n] K]; [discriminate|]; rewrite HF in K; congruence|].
    intros ->. exists 1. apply HF.
  - intros x [[|n] K]; [discriminate|]. rewrite HF in K; discriminate.
Qed.

(** the three combinators, in terms of the updated context [u] *)
Lemma block_at {A} (p : gram A) s i c u : update_loc c s i = u ->
  runs_in E (GBlock p) p s i c (set_mark u (loc_col (ctx_loc u))) (Some u).
Proof. intros <-. apply runs_in_restore; reflexivity. Qed.
Lemma aligned_at {A} (p : gram A) s i c u : update_loc c s i = u ->
  (ctx_mark u = loc_col (ctx_loc u) -> runs_in E (GAligned p) p s i c u None) /\
  (ctx_mark u <> loc_col (ctx_loc u) -> only_fails E (GAligned p) s i c (bad_indentation (ctx_loc u))).
Proof.
  intros H. split; intros K.
  - apply runs_in_keep; intros; cbn [fast full]; unfold aligned_fast, aligned_full; rewrite H;
      apply Z.eqb_eq in K; rewrite K; reflexivity.
  - apply only_fails_const; intros; cbn [fast full]; unfold aligned_fast, aligned_full; rewrite H;
      apply Z.eqb_neq in K; rewrite K; reflexivity.
Qed.
Lemma indented_at {A} d (p : gram A) s i c u : update_loc c s i = u ->
  (loc_col (ctx_loc u) = ctx_mark u + d ->
     runs_in E (GIndented d p) p s i c (set_mark u (loc_col (ctx_loc u))) (Some u))%Z /\
  (loc_col (ctx_loc u) <> ctx_mark u + d ->
     only_fails E (GIndented d p) s i c (bad_indentation (ctx_loc u)))%Z.
Proof.
  intros H. split; intros K.
  - apply runs_in_restore; intros; cbn [fast full]; unfold indented_fast, indented_full; rewrite H;
      symmetry in K; apply Z.eqb_eq in K; rewrite K; reflexivity.
  - apply only_fails_const; intros; cbn [fast full]; unfold indented_fast, indented_full; rewrite H;
      apply not_eq_sym, Z.eqb_neq in K; rewrite K; reflexivity.
Qed.
End Layout.

(** ** C26 *)
Lemma text_pos_Cok s i c : text_ctx s i c <-> pos_Cok scannerless_get_loc (true_loc s) i c.
Proof.
  split.
  - intros [H1 H2]. split; auto.
  - intros [H1 [H2|H2]]; split; auto. exists 0. split; [lia|]. rewrite true_loc_0. auto.
Qed.
Lemma text_update s i c : text_ctx s i c -> i <= List.length s ->
  update_loc c s i = text_here s i (ctx_mark c).
Proof.
  intros [Hg (p & Hp & Hl)] Hi. unfold update_loc. rewrite Hl. cbn [true_loc loc_pos].
  destruct (Z.eqb_spec (Z.of_nat i) (Z.of_nat p)) as [H|H].
  - apply Nat2Z.inj in H. subst p. destruct c; simpl in *. unfold text_here. congruence.
  - unfold text_here. rewrite Hg, scannerless_step by lia. reflexivity.
Qed.

Section Text.
Context {V : nat -> Type}.
Variable E : env char V.
Notation gram := (gram char V).
Implicit Types s : list char.

(** every context met in a run of scannerless.parse satisfies [text_ctx]: the
    initial one, those left by a parser that succeeds or is repaired, and those
    in which the layout combinators run their argument *)
(** (the initial mark is column 0) *)
Theorem C26_initial_context s : text_ctx s 0 (init_ctx scannerless_get_loc) /\ ctx_mark (init_ctx (T := char) scannerless_get_loc) = 0%Z.
Proof. split; [|reflexivity]. split; [reflexivity|exists 0; split; [lia|reflexivity]]. Qed.
Theorem C26_inner_context s i m : text_ctx s i (text_here s i m).
Proof. split; [reflexivity|exists i; split; [lia|reflexivity]]. Qed.
Theorem C26_next_context A (p : gram A) s i c :
  wf_env E -> wf p -> text_ctx s i c -> i <= List.length s ->
  (forall o, runs E p s i c (SOk o) ->
     i <= ok_pos o <= List.length s /\ text_ctx s (ok_pos o) (ok_ctx o) /\
     ctx_mark (ok_ctx o) = ctx_mark c) /\
  (forall ins rem r, recovers E p s i c ins rem r ->
     (forall o, r = ROk o ->
        i <= ok_pos o <= List.length s /\ text_ctx s (ok_pos o) (ok_ctx o) /\
        ctx_mark (ok_ctx o) = ctx_mark c) /\
     (forall rep, In rep (offers r) ->
        i <= r_pos rep <= List.length s /\ text_ctx s (r_pos rep) (r_ctx rep) /\
        ctx_mark (r_ctx rep) = ctx_mark c)).
Proof.
  intros HE Hp Hc Hi. apply text_pos_Cok in Hc.
  pose proof (pos_system s _ _ True (scannerless_cohere s) (fun _ => scannerless_exact s)) as CS.
  assert (HE' : forall d, gok True (E d)) by (intros d; apply gok_wf; auto; apply HE).
  assert (Hp' : gok True p) by (apply gok_wf; auto).
  split.
  - intros o [n H]. eapply fast_good in H; eauto.
    destruct H as (_ & H1 & _ & H2 & H3). apply text_pos_Cok in H2. auto.
  - intros ins rem r [n H]. eapply full_good in H; eauto. split.
    + intros o ->. destruct H as (_ & H1 & _ & H2 & H3). apply text_pos_Cok in H2. auto.
    + intros rep Hr. destruct r as [o|e|k]; try (destruct Hr; fail).
      destruct H as [_ H]. destruct (H rep Hr) as [(sk & _ & _ & _ & _ & H1 & H2 & H3) _].
      apply text_pos_Cok in H2. auto.
Qed.

Theorem C26_block A (p : gram A) s i c :
  text_ctx s i c -> i <= List.length s ->
  runs_in E (GBlock p) p s i c
    (text_here s i (Z.of_nat (true_col s i))) (Some (text_here s i (ctx_mark c))).
Proof. intros Hc Hi. apply (block_at E p s i c _ (text_update _ _ _ Hc Hi)). Qed.

Theorem C26_aligned A (p : gram A) s i c :
  text_ctx s i c -> i <= List.length s ->
  (ctx_mark c = Z.of_nat (true_col s i) ->
     runs_in E (GAligned p) p s i c (text_here s i (ctx_mark c)) None) /\
  (ctx_mark c <> Z.of_nat (true_col s i) ->
     only_fails E (GAligned p) s i c (bad_indentation (true_loc s i))).
Proof. intros Hc Hi. apply (aligned_at E p s i c _ (text_update _ _ _ Hc Hi)). Qed.

Theorem C26_indented A d (p : gram A) s i c :
  text_ctx s i c -> i <= List.length s ->
  (Z.of_nat (true_col s i) = ctx_mark c + d ->
     runs_in E (GIndented d p) p s i c
       (text_here s i (Z.of_nat (true_col s i))) (Some (text_here s i (ctx_mark c))))%Z /\
  (Z.of_nat (true_col s i) <> ctx_mark c + d ->
     only_fails E (GIndented d p) s i c (bad_indentation (true_loc s i)))%Z.
Proof. intros Hc Hi. apply (indented_at E d p s i c _ (text_update _ _ _ Hc Hi)). Qed.
End Text.
Print Assumptions C26_next_context.
Print Assumptions C26_block.
Print Assumptions C26_aligned.
Print Assumptions C26_indented.

(** "  1", "  2", " 3": in the block started at column 2, the "2" is aligned and
    the "3", at offset 9, is not *)
Example C26_case :
  (exists r, scannerless_parse lay_E 60 lay_top lay_input false = Ret r /\
             unwrap r false = Returns [1; 2]%Z) /\
  let c := Ctx 2 (true_loc lay_input 4) scannerless_get_loc in
  text_ctx lay_input 6 c /\ runs_in lay_E (GAligned ex_digit) ex_digit lay_input 6 c
    (text_here lay_input 6 2) None /\
  text_ctx lay_input 9 c /\
  only_fails lay_E (GAligned ex_digit) lay_input 9 c (bad_indentation (Loc 9 2 1)).
Proof.
  split; [eexists; vm_compute; auto|].
  assert (H : forall i, 4 <= i -> text_ctx lay_input i (Ctx 2 (true_loc lay_input 4) scannerless_get_loc)).
  { intros i Hi. split; [reflexivity|]. exists 4. auto. }
  intros c. split; [apply H; lia|]. split; [|split; [apply H; lia|]].
  - apply C26_aligned; [apply H; lia|vm_compute; lia|vm_compute; reflexivity].
  - apply (proj2 (C26_aligned lay_E _ ex_digit lay_input 9 c ltac:(apply H; lia) ltac:(vm_compute; lia))).
    vm_compute. discriminate.
Qed.

(** ** C27 *)
Lemma tok_pos_Cok s i c : tok_ctx s i c <-> pos_Cok lexer_get_loc (loc_from_stream s) i c.
Proof. reflexivity. Qed.
Lemma tok_update s i c : tok_ctx s i c -> update_loc c s i = tok_here s i c (ctx_mark c).
Proof.
  intros [Hg _]. unfold update_loc, tok_here, tok_seen, lexer_get_loc in *. rewrite Hg.
  destruct (Z.eqb _ _); auto. destruct c; simpl in *; congruence.
Qed.

Section Tokens.
Context {V : nat -> Type}.
Variable E : env token V.
Notation gram := (gram token V).
Implicit Types s : list token.

Theorem C27_initial_context s : tok_ctx s 0 (init_ctx lexer_get_loc) /\ ctx_mark (init_ctx lexer_get_loc) = 0%Z.
Proof. split; [|reflexivity]. split; auto. Qed.
Theorem C27_inner_context s i c m : tok_ctx s i c -> tok_ctx s i (tok_here s i c m).
Proof.
  intros [_ H]. split; [reflexivity|]. simpl. unfold tok_seen.
  destruct (Z.eqb _ _); auto. right. exists i. auto.
Qed.
Theorem C27_next_context A (p : gram A) s i c :
  wf_env E -> wf p -> tok_ctx s i c -> i <= List.length s ->
  (forall o, runs E p s i c (SOk o) ->
     i <= ok_pos o <= List.length s /\ tok_ctx s (ok_pos o) (ok_ctx o) /\
     ctx_mark (ok_ctx o) = ctx_mark c) /\
  (forall ins rem r, recovers E p s i c ins rem r ->
     (forall o, r = ROk o ->
        i <= ok_pos o <= List.length s /\ tok_ctx s (ok_pos o) (ok_ctx o) /\
        ctx_mark (ok_ctx o) = ctx_mark c) /\
     (forall rep, In rep (offers r) ->
        i <= r_pos rep <= List.length s /\ tok_ctx s (r_pos rep) (r_ctx rep) /\
        ctx_mark (r_ctx rep) = ctx_mark c)).
Proof.
  intros HE Hp Hc Hi. apply tok_pos_Cok in Hc.
  assert (CS : ctx_system s (fun _ _ => True) (fun _ _ => True) (pos_Cok lexer_get_loc (loc_from_stream s)) True).
  { destruct (pos_system s _ _ False (lexer_cohere s) (fun F => match F with end)) as [H1 H2 _ H4 _].
    constructor; auto. }
  assert (HE' : forall d, gok True (E d)) by (intros d; apply gok_wf; auto; apply HE).
  assert (Hp' : gok True p) by (apply gok_wf; auto).
  split.
  - intros o [n H]. eapply fast_good in H; eauto.
    destruct H as (_ & H1 & _ & H2 & H3). apply tok_pos_Cok in H2. auto.
  - intros ins rem r [n H]. eapply full_good in H; eauto. split.
    + intros o ->. destruct H as (_ & H1 & _ & H2 & H3). apply tok_pos_Cok in H2. auto.
    + intros rep Hr. destruct r as [o|e|k]; try (destruct Hr; fail).
      destruct H as [_ H]. destruct (H rep Hr) as [(sk & _ & _ & _ & _ & H1 & H2 & H3) _].
      apply tok_pos_Cok in H2. auto.
Qed.

(** what the code does: the column tested is that of [tok_seen] *)
Theorem C27_block A (p : gram A) s i c : tok_ctx s i c ->
  runs_in E (GBlock p) p s i c
    (tok_here s i c (loc_col (tok_seen s i c))) (Some (tok_here s i c (ctx_mark c))).
Proof. intros Hc. apply (block_at E p s i c _ (tok_update _ _ _ Hc)). Qed.
Theorem C27_aligned A (p : gram A) s i c : tok_ctx s i c ->
  (ctx_mark c = loc_col (tok_seen s i c) ->
     runs_in E (GAligned p) p s i c (tok_here s i c (ctx_mark c)) None) /\
  (ctx_mark c <> loc_col (tok_seen s i c) ->
     only_fails E (GAligned p) s i c (bad_indentation (tok_seen s i c))).
Proof. intros Hc. apply (aligned_at E p s i c _ (tok_update _ _ _ Hc)). Qed.
Theorem C27_indented A d (p : gram A) s i c : tok_ctx s i c ->
  (loc_col (tok_seen s i c) = ctx_mark c + d ->
     runs_in E (GIndented d p) p s i c
       (tok_here s i c (loc_col (tok_seen s i c))) (Some (tok_here s i c (ctx_mark c))))%Z /\
  (loc_col (tok_seen s i c) <> ctx_mark c + d ->
     only_fails E (GIndented d p) s i c (bad_indentation (tok_seen s i c)))%Z.
Proof. intros Hc. apply (indented_at E d p s i c _ (tok_update _ _ _ Hc)). Qed.

(** that is the true location of the current token if no earlier token's
    character offset is the index of the current token *)
Theorem C27_true_column s i c : tok_ctx s i c -> offset_free s i ->
  tok_seen s i c = loc_from_stream s i.
Proof.
  intros [_ H] [H0 Hf]. unfold tok_seen.
  destruct (Z.eqb_spec (Z.of_nat i) (loc_pos (ctx_loc c))) as [K|K]; auto.
  destruct H as [H|(p & Hp & H)].
  - rewrite H in *. simpl in K. assert (i = 0) by lia. subst i. symmetry. auto.
  - rewrite H in *. destruct (Nat.eq_dec p i) as [->|Hn]; auto. destruct (Hf p); [lia|auto].
Qed.
End Tokens.
Print Assumptions C27_next_context.
Print Assumptions C27_block.
Print Assumptions C27_aligned.
Print Assumptions C27_indented.
Print Assumptions C27_true_column.

(** two numbers on two lines, both at column 2: block(many(aligned(number)))
    uses column 0 for the first one and rejects the second one *)
Definition lt_V : nat -> Type := fun _ => unit.
Definition lt_number : gram token lt_V token := token_p "num".
Definition lt_block : gram token lt_V (list token) :=
  seql (GBlock (GMany (GAligned lt_number))) GEof.
Definition lt_E : env token lt_V := fun _ => GUndef.
Definition lt_src : list char := ex_str ("  1" ++ lay_nltxt ++ "  2")%string.
Definition lt_toks : list token :=
  match split_tokens 30 lt_src lx_spec with Ret (LexOk l) => l | _ => [] end.
Theorem C27_wrong_column_refuted :
  (* the source lexes into tokens whose locations have the same column *)
  (exists a b, split_tokens 30 lt_src lx_spec = Ret (LexOk [a; b]) /\
     loc_col (tk_start a) = 2%Z /\ loc_col (tk_start b) = 2%Z) /\
  (* yet parsing fails at the second token *)
  (exists r e, lexer_parse lt_E 30 lt_block lt_toks false = Ret r /\
     unwrap r false = Raises [e] /\ ei_loc e = Loc 6 1 2 /\
     In "indentation"%string (ei_expected e)) /\
  (* while the same block read character by character is accepted *)
  (exists r, scannerless_parse lay_E 60 lay_top lt_src false = Ret r /\
     unwrap r false = Returns [1; 2]%Z).
Proof.
  split; [|split].
  - do 2 eexists. split; [vm_compute; reflexivity|vm_compute; auto].
  - do 2 eexists. split; [vm_compute; reflexivity|]. split; [vm_compute; reflexivity|].
    split; [reflexivity|vm_compute; auto].
  - eexists. split; vm_compute; reflexivity.
Qed.
Print Assumptions C27_wrong_column_refuted.

(** a context met when parsing "1", "2" from column 0, where the second token is
    at offset 2: the hypotheses hold at both tokens *)
Definition lt_src0 : list char := ex_str ("1" ++ lay_nltxt ++ "2")%string.
Definition lt_toks0 : list token :=
  match split_tokens 30 lt_src0 lx_spec with Ret (LexOk l) => l | _ => [] end.
Example C27_case :
  List.length lt_toks0 = 2 /\
  (exists r, lexer_parse lt_E 30 lt_block lt_toks0 false = Ret r /\
     unwrap r false = Returns lt_toks0) /\
  (forall i, i < 2 -> offset_free lt_toks0 i) /\
  tok_ctx lt_toks0 1 (Ctx 0 (loc_from_stream lt_toks0 0) lexer_get_loc).
Proof.
  split; [reflexivity|]. split; [eexists; split; vm_compute; reflexivity|]. split.
  - intros i Hi. split; [intros ->; reflexivity|].
    intros p Hp. assert (i = 1 /\ p = 0) as [-> ->] by lia. vm_compute. discriminate.
  - split; [reflexivity|]. right. exists 0. auto.
Qed.
