(** Property C76: lists with mistakes in them (ListSpec.v). *)
From Verif Require Import ApiSpec ApiProofs Locations EditInv PegSpec PropsPeg DiagSpec DiagProofs PropsDiag PropsRec PropsRecovery
  FirstSpec First PropsFirst LL PropsLL Examples Mend PropsMend Lists.
From Coq Require Import Lia.
Import ListNotations.

Lemma parse_read T V (E : env T V) n A (g : gram T V A) s mi get fmt locof r v rec :
  wf_env E -> wf g -> cohere get s locof -> lay_ok E g s locof ->
  parse E n g s rec mi get fmt = Ret r -> unwrap r false = Returns v ->
  exists j, peg E s (fun i => loc_col (locof i)) A g 0 0 (PSucc v j).
Proof.
  intros HE Hg Hco Hl H Hu.
  assert (K : exists r', parse E n g s false mi get fmt = Ret r' /\ unwrap r' false = Returns v).
  { destruct rec; [|eauto]. apply (proj2 (C01_recovery_transparent T V E n A g s mi mi get fmt v)). eauto. }
  destruct K as (r' & H' & U').
  destruct (proj1 (proj1 (C43_plain_diagnostics T V E A g s mi get fmt locof false HE Hg Hco Hl) v)) as (j & X & D); eauto.
  exists j. apply (diag_peg _ _ _ _ _ _ _ _ _ _ D).
Qed.

Lemma keeps_parse T V (E : env T V) n A (g : gram T V A) s mi get fmt locof r rec (P : A -> Prop) k :
  wf_env E -> wf g -> cohere get s locof -> lay_ok E g s locof ->
  keeps E s locof g 0 0 P k -> parse E n g s rec mi get fmt = Ret r ->
  (forall v, unwrap r true = Returns v -> P v) /\
  (forall errs, unwrap r false = Raises errs -> rec = false \/ (exists v, unwrap r true = Returns v) ->
     Forall (not_before s locof k) errs).
Proof.
  intros HE Hg Hco Hl (K1 & K2 & K3) H. destruct rec.
  - destruct (C74_best_mend _ _ _ _ _ _ _ _ _ _ _ _ HE Hg Hco Hl H) as [B1 B2]. cbv zeta in B1, B2.
    destruct (unwrap r false) as [v|errs] eqn:Hu.
    + destruct (parse_read _ _ _ _ _ _ _ _ _ _ _ _ _ _ HE Hg Hco Hl H Hu) as (j & R). split; [|discriminate].
      intros v' Hu'. replace v' with v; [apply (K1 _ _ R)|].
      clear - Hu Hu'. unfold unwrap in *. destruct (pr_result r) as [o|e|rc]; try congruence. destruct (rc_reps rc); discriminate.
    + destruct (B2 errs eq_refl) as [(e & _ & Ho & Hr & _)|(y & M & Hr & R & _)]; rewrite Hr.
      * split; [discriminate|]. intros ? _ [Q|[v Q]]; discriminate.
      * destruct (K3 _ _ _ M) as [HP (_ & W)]. split; [intros v Q; injection Q as <-; exact HP|].
        intros errs' Q _. injection Q as <-. unfold y_reported in R. clear - R W. revert R W. generalize (y_ops y). intros ops R W.
        revert W. induction R as [|e o errs ops (_ & L & _) R IH]; intros W; constructor; inversion W as [|? ? W1 W2]; subst; auto.
        destruct W1 as (j & J1 & J2). exists j. split; auto. congruence.
  - split.
    + intros v Hu. destruct (parse_read _ _ _ _ _ _ _ _ _ _ _ _ v _ HE Hg Hco Hl H) as (j & R); [|apply (K1 _ _ R)].
      unfold parse in H. destruct (fast E n g s 0 (init_ctx get)) as [[o|e]|e|]; cbn in H; try discriminate; injection H as <-; cbn in *; auto; discriminate.
    + intros errs Hu _. destruct (proj1 (proj1 (proj2 (C43_plain_diagnostics T V E A g s mi get fmt locof false HE Hg Hco Hl)) errs)) as (b & l & X & D & ->); [eauto|].
      destruct (K2 _ _ _ D) as (j & L & ->). constructor; [|constructor]. exists j. auto.
Qed.

(** ** What was read before the first mistake is kept *)
Theorem C76_items_kept :
  forall T V (E : env T V) n A B (p : gram T V A) (q : gram T V B) s rec mi get fmt locof r vs k,
  let g := seql (GMany p) q in
  wf_env E -> wf g -> cohere get s locof -> lay_ok E g s locof ->
  items E s locof p 0 0 vs k ->
  parse E n g s rec mi get fmt = Ret r ->
  (forall v, unwrap r true = Returns v -> exists w, v = vs ++ w) /\
  (forall errs, unwrap r false = Raises errs -> rec = false \/ (exists v, unwrap r true = Returns v) ->
     Forall (not_before s locof k) errs).
Proof.
  intros T V E n A B p q s rec mi get fmt locof r vs k g HE Hg Hco Hl HI H.
  destruct (lay_gok _ _ _ _ _ HE Hg Hl) as [G1 G2]. pose proof G1 as (_ & (_ & Gp) & Gq).
  eapply keeps_parse; eauto. unfold g.
  apply (keeps_l E s get locof _ Hco (fun x => x) G2); auto; [|apply many_gok; exact Gp|lia].
  apply (keeps_many E s get locof _ Hco (fun x => x) G2); auto. lia.
Qed.
Print Assumptions C76_items_kept.

Theorem C76_separated_items_kept :
  forall T V (E : env T V) n A B C (p : gram T V A) (sep : gram T V B) (q : gram T V C) s rec mi get fmt locof r vs k,
  let g := seql (sep_by p sep) q in
  wf_env E -> wf g -> cohere get s locof -> lay_ok E g s locof ->
  sep_items E s locof p sep 0 0 vs k ->
  parse E n g s rec mi get fmt = Ret r ->
  (forall v, unwrap r true = Returns v -> exists w, v = vs ++ w) /\
  (forall errs, unwrap r false = Raises errs -> rec = false \/ (exists v, unwrap r true = Returns v) ->
     Forall (not_before s locof k) errs).
Proof.
  intros T V E n A B C p sep q s rec mi get fmt locof r vs k g HE Hg Hco Hl HI H.
  destruct (lay_gok _ _ _ _ _ HE Hg Hl) as [G1 G2]. pose proof G1 as (_ & Gp & Gq).
  eapply keeps_parse; eauto. unfold g.
  apply (keeps_l E s get locof _ Hco (fun x => x) G2); auto; [|lia].
  apply (keeps_sep E s get locof _ Hco (fun x => x) G2); auto. lia.
Qed.
Print Assumptions C76_separated_items_kept.

(** ** A sequence whose first part is read: its value is kept, and errors come behind it *)
Theorem C76_first_part_kept :
  forall T V (E : env T V) n A B (p : gram T V A) (q : gram T V B) s rec mi get fmt locof r v k,
  let g := seq p q in
  wf_env E -> wf g -> cohere get s locof -> lay_ok E g s locof ->
  peg E s (fun i => loc_col (locof i)) A p 0 0 (PSucc v k) ->
  parse E n g s rec mi get fmt = Ret r ->
  (forall u, unwrap r true = Returns u -> exists w, u = (v, w)) /\
  (forall errs, unwrap r false = Raises errs -> rec = false \/ (exists v, unwrap r true = Returns v) ->
     Forall (not_before s locof k) errs).
Proof.
  intros T V E n A B p q s rec mi get fmt locof r v k g HE Hg Hco Hl HI H.
  destruct (lay_gok _ _ _ _ _ HE Hg Hl) as [G1 G2]. pose proof G1 as (_ & Gp & Gq).
  assert (L : k <= List.length s) by (apply (peg_le E s get locof _ Hco (fun x => x) G2 _ _ _ _ _ _ HI Gp); lia).
  eapply keeps_parse; eauto. unfold g, seq. eapply keeps_impl.
  - apply (keeps_r E s get locof _ Hco (fun x => x) G2 _ _ _ _ _ _ _ _ _ _ _ _ HI (keeps_start E s get locof _ Hco (fun x => x) G2 _ q 0 k Gq L) Gp Gq). lia.
  - cbn. intros u (w & _ & ->). eauto.
Qed.
Print Assumptions C76_first_part_kept.

(** ** A mistake in the first token of an item of [p.many() << eof()]: the
    repetition ends there, and the rest of the input is skipped *)
Theorem C76_list_cut_short :
  forall T V (E : env T V) n A (p : gram T V A) s mi get fmt locof r vs k,
  let g := seql (GMany p) GEof in
  wf_env E -> wf g -> cohere get s locof -> lay_ok E g s locof ->
  items E s locof p 0 0 vs k -> k < List.length s ->
  peg E s (fun i => loc_col (locof i)) A p 0 k (PFail false) ->
  parse E n g s true mi get fmt = Ret r ->
  exists e, unwrap r false = Raises [e] /\ unwrap r true = Returns vs /\
    ei_op e = Some (Skip (List.length s - k)) /\ ei_loc e = locof k /\ ei_loc_str e = fmt (locof k).
Proof.
  intros T V E n A p s mi get fmt locof r vs k g HE Hg Hco Hl HI Hk HF H.
  destruct (lay_gok _ _ _ _ _ HE Hg Hl) as [G1 G2]. pose proof G1 as (_ & Gp & Gq).
  pose proof (items_read E s locof _ _ _ _ _ _ HI HF) as R.
  destruct (C74_best_mend _ _ _ _ _ _ _ _ _ _ _ _ HE Hg Hco Hl H) as [B1 B2]. cbv zeta in B1, B2.
  assert (M : exists y, mend E s locof _ g 0 0 mi (Some mi) y).
  { eexists. unfold g, seql. eapply md_seq_2; [exact R|]. destruct (Nat.ltb 0 k); apply md_eof; auto. }
  destruct M as [y My].
  destruct (unwrap r false) as [v|errs]; [destruct (B1 v eq_refl y My)|].
  destruct (B2 errs eq_refl) as [(e & _ & _ & _ & N)|(y' & M & U & Rp & _)]; [destruct (N y My)|].
  unfold g, seql in M. apply mend_inv in M as [(v' & j' & y0 & R' & M & ->)|(y0 & M & _)].
  - pose proof (peg_det E s get locof _ Hco (fun x => x) G2 _ _ _ _ _ _ R R' Gp ltac:(lia)) as Q. injection Q as <- <-.
    apply mend_inv in M as (_ & _ & ->). unfold y_reported in Rp. cbn in Rp. inversion Rp as [|e o es os (R1 & R2 & R3) R4]. subst.
    inversion R4. subst. exists e. cbn in *. auto 10.
  - destruct (peg_no_mend E s get locof _ Hco (fun x => x) G2 _ _ _ _ _ _ _ _ _ R Gp ltac:(lia) M).
Qed.
Print Assumptions C76_list_cut_short.

(** ** Several mistakes in [p.many() << eof()], each in an item that has begun:
    no more is reported than mending each of them on its own costs *)
Theorem C76_several_mistakes :
  forall T V (E : env T V) n A (p : gram T V A) s mi get fmt locof r c,
  let g := seql (GMany p) GEof in
  wf_env E -> wf g -> cohere get s locof -> lay_ok E g s locof ->
  pieces E s locof p 0 mi 0 c (List.length s) ->
  peg E s (fun i => loc_col (locof i)) A p 0 (List.length s) (PFail false) ->
  parse E n g s true mi get fmt = Ret r ->
  (c = 0 -> exists v, unwrap r false = Returns v) /\
  (0 < c -> exists errs v ops, unwrap r false = Raises errs /\ unwrap r true = Returns v /\
     map ei_op errs = map Some ops /\ 0 < List.length errs <= c /\ ops_cost ops <= c).
Proof.
  intros T V E n A p s mi get fmt locof r c g HE Hg Hco Hl HP HF H.
  destruct (C74_best_mend _ _ _ _ _ _ _ _ _ _ _ _ HE Hg Hco Hl H) as [B1 B2]. cbv zeta in B1, B2.
  destruct (lay_gok _ _ _ _ _ HE Hg Hl) as [G1 G2].
  destruct (pieces_mend E s locof _ _ _ _ _ _ _ HP HF) as [(-> & vs & R)|(Lc & vs & ops & M)].
  - split; [intros _|lia].
    assert (R' : peg E s (fun i => loc_col (locof i)) _ g 0 0 (PSucc vs (List.length s))).
    { apply (pg_seq E s _ _ _ _ (GMany p) GEof (fun l _ => l) 0 0 vs (List.length s) _ R (pg_eof _ s _ _)). }
    pose proof (proj1 (parse_full _ _ _ _ _ _ _ _ _) H) as [_ HF'].
    destruct (peg_read E s get locof _ Hco (fun x => x) G2 _ _ _ _ _ _ _ _ _ _ _ R' G1 ltac:(lia) (pos_init _ _) eq_refl HF') as (o & Q & _).
    unfold unwrap. rewrite Q. eauto.
  - split; [lia|intros _]. destruct (M (Some mi)) as (y & My & <- & Py & _).
    assert (Mg : mend E s locof _ g 0 0 mi (Some mi) (y_then_read mi (fun l _ => l) y tt (List.length s))).
    { unfold g, seql. eapply md_seq_1; [exact My|]. rewrite Py. apply pg_eof. }
    destruct (unwrap r false) as [v|errs]; [destruct (B1 v eq_refl _ Mg)|].
    destruct (B2 errs eq_refl) as [(e & _ & _ & _ & N)|(y' & My' & U & Rp & Bt)]; [destruct (N _ Mg)|].
    assert (C : y_cost y' <= y_cost y).
    { destruct (Nat.leb_spec (y_cost y') (y_cost y)); auto. destruct (Bt _ Mg). left. cbn. lia. }
    destruct (mend_cost _ _ _ _ _ _ _ _ _ _ My') as (N1 & N2 & N3). rewrite N3 in C.
    exists errs, (y_val y'), (map fst (y_ops y')). split; auto. split; auto.
    unfold y_reported in Rp. clear - N1 N2 C Rp.
    assert (L : List.length errs = List.length (y_ops y')) by (clear - Rp; induction Rp; cbn; auto).
    assert (Ls : forall l : list (rop * loc), Forall (fun o => 0 < op_cost (fst o)) l -> List.length l <= ops_cost (map fst l)).
    { induction 1; unfold ops_cost, list_sum in *; cbn in *; lia. }
    specialize (Ls _ N2). split; [|split; auto].
    + clear - Rp. induction Rp as [|e o es os (K & _) R IH]; cbn; congruence.
    + destruct (y_ops y'); [congruence|]. cbn in *. lia.
Qed.
Print Assumptions C76_several_mistakes.

(** ** Cases: statements [digit ;], some of them with one character too many *)
Definition stmt_text (x : char * option char) : list char :=
  match x with (d, None) => [d; ex_ch ";"] | (d, Some z) => [d; z; ex_ch ";"] end.
Definition stmt_ok (x : char * option char) : Prop := a_digit (fst x) /\ snd x <> Some (ex_ch ";").
Definition stmt_bad (x : char * option char) : bool := match snd x with None => false | Some _ => true end.
Definition stmts_text (l : list (char * option char)) : list char := flat_map stmt_text l.
Definition ex_stmts : ex_gram (list Z) := seql (GMany ex_wfree) GEof.

Lemma digit_reads s at_ i d : a_digit d -> nth_error s i = Some d ->
  peg lay_E s at_ Z ex_digit 0 i (PSucc (Z.of_N d - 48)%Z (i + 1)).
Proof.
  intros [D1 D2] N. eapply pg_fmap; [|reflexivity]. apply pg_label. apply pg_sat; auto.
  apply N.leb_le in D1, D2. rewrite D1, D2. reflexivity.
Qed.
Lemma nth_app {X} (a : list X) b c i : nth_error b i = Some c -> nth_error (a ++ b) (List.length a + i) = Some c.
Proof. intros H. rewrite nth_error_app2 by lia. rewrite <- H. f_equal. lia. Qed.
Lemma stmt_reads (a : list char) d b at_ : a_digit d ->
  peg lay_E (a ++ [d; ex_ch ";"] ++ b) at_ Z ex_wfree 0 (List.length a) (PSucc (Z.of_N d - 48)%Z (List.length a + 2)).
Proof.
  intros D. replace (List.length a + 2) with (List.length a + 1 + 1) by lia.
  apply (pg_seq lay_E _ _ _ _ _ ex_digit (ex_sym ";") (fun l _ => l) 0 (List.length a) (Z.of_N d - 48)%Z (List.length a + 1) (PSucc (ex_ch ";") (List.length a + 1 + 1))).
  - apply digit_reads; auto. rewrite <- (Nat.add_0_r (List.length a)). apply nth_app. reflexivity.
  - apply pg_sym; [|reflexivity]. apply nth_app. reflexivity.
Qed.
Lemma stmt_mends (a : list char) d z b at_ ins : a_digit d -> z <> ex_ch ";" ->
  exists y, mend lay_E (a ++ [d; z; ex_ch ";"] ++ b) at_ Z ex_wfree 0 (List.length a) ins None y /\
    y_cost y = 1 /\ y_pos y = List.length a + 3.
Proof.
  intros D Z0. eexists. split.
  - unfold ex_wfree, seql. eapply md_seq_2; [apply digit_reads; [exact D|]|].
    + rewrite <- (Nat.add_0_r (List.length a)). apply nth_app. reflexivity.
    + replace (Nat.ltb (List.length a) (List.length a + 1)) with true by (symmetry; apply Nat.ltb_lt; lia).
      apply md_sym_skip with (j := List.length a + 2) (t := ex_ch ";").
      * intros t Q. rewrite (nth_app a ([d; z; ex_ch ";"] ++ b) z 1 eq_refl) in Q. injection Q as <-. apply N.eqb_neq. exact Z0.
      * split; [rewrite !app_length; cbn; lia|]. split; [split; [apply nth_app; reflexivity|reflexivity]|]. intros k K. lia.
  - cbn. split; lia.
Qed.
Lemma stmts_pieces l ins at_ : forall a, Forall stmt_ok l ->
  pieces lay_E (a ++ stmts_text l) at_ ex_wfree 0 ins (List.length a) (List.length (filter stmt_bad l)) (List.length (a ++ stmts_text l)).
Proof.
  induction l as [|[d [z|]] l IH]; intros a H.
  - cbn. rewrite app_nil_r. apply pc_nil.
  - inversion H as [|? ? [H1 H2] H3]. subst. cbn in H1, H2. unfold stmts_text. cbn [flat_map stmt_text filter stmt_bad snd List.length]. fold (stmts_text l).
    destruct (stmt_mends a d z (stmts_text l) at_ ins H1 (fun Q => H2 (f_equal Some Q))) as (y & M & C & P).
    change (S (List.length (filter stmt_bad l))) with (1 + List.length (filter stmt_bad l)). rewrite <- C.
    apply pc_mend with (y := y); [exact M|]. rewrite P.
    specialize (IH (a ++ [d; z; ex_ch ";"]) H3). rewrite <- !app_assoc in IH. rewrite !app_length in IH. cbn [List.length] in IH. rewrite !app_length. exact IH.
  - inversion H as [|? ? [H1 H2] H3]. subst. cbn in H1, H2. unfold stmts_text. cbn [flat_map stmt_text filter stmt_bad snd List.length]. fold (stmts_text l).
    eapply pc_read; [|apply (stmt_reads a d _ (fun i => loc_col (at_ i)) H1)|]; [lia|].
    specialize (IH (a ++ [d; ex_ch ";"]) H3). rewrite <- !app_assoc in IH. rewrite !app_length in IH. cbn [List.length] in IH. rewrite !app_length. exact IH.
Qed.
Lemma stmts_items l at_ : forall a b, Forall stmt_ok l -> Forall (fun x => stmt_bad x = false) l ->
  items lay_E (a ++ stmts_text l ++ b) at_ ex_wfree 0 (List.length a) (map (fun x => (Z.of_N (fst x) - 48)%Z) l) (List.length (a ++ stmts_text l)).
Proof.
  induction l as [|[d [z|]] l IH]; intros a b H H'.
  - cbn. rewrite app_nil_r. apply it_nil.
  - inversion H' as [|? ? K _]. discriminate.
  - inversion H as [|? ? [H1 H2] H3]. inversion H' as [|? ? _ HB]. subst. cbn in H1, H2. unfold stmts_text. cbn [flat_map stmt_text map fst]. fold (stmts_text l).
    eapply it_cons with (j := List.length a + 2); [lia| |].
    + rewrite <- app_assoc. apply stmt_reads. exact H1.
    + specialize (IH (a ++ [d; ex_ch ";"]) b H3 HB). rewrite <- !app_assoc in IH. rewrite !app_length in IH. cbn [List.length] in IH.
      rewrite !app_length. rewrite <- app_assoc. exact IH.
Qed.

(** each superfluous character is at most one error; all statements before the first one are kept *)
Theorem C76_case : forall good l n r, Forall stmt_ok (good ++ l) -> Forall (fun x => stmt_bad x = false) good ->
  existsb stmt_bad l = true ->
  scannerless_parse lay_E n ex_stmts (stmts_text (good ++ l)) true = Ret r ->
  exists errs v, unwrap r false = Raises errs /\
    unwrap r true = Returns (map (fun x => (Z.of_N (fst x) - 48)%Z) good ++ v) /\
    0 < List.length errs <= List.length (filter stmt_bad l) /\
    Forall (not_before (stmts_text (good ++ l)) (true_loc (stmts_text (good ++ l))) (List.length (stmts_text good))) errs.
Proof.
  intros good l n r Ho Hg Hb H. set (s := stmts_text (good ++ l)) in *.
  assert (W : wf ex_stmts /\ wf_env lay_E) by (split; [cbn; auto 10|apply lay_wf]). destruct W as [W WE].
  assert (Sg : s = [] ++ stmts_text good ++ stmts_text l) by (unfold s, stmts_text; apply flat_map_app).
  assert (Fl : filter stmt_bad (good ++ l) = filter stmt_bad l).
  { clear - Hg. induction Hg as [|x g Hx Hg IH]; cbn; auto. rewrite Hx. exact IH. }
  assert (Lb : 0 < List.length (filter stmt_bad l)).
  { apply existsb_exists in Hb as (x & Hx & Bx). assert (K : In x (filter stmt_bad l)) by (apply filter_In; auto).
    destruct (filter stmt_bad l); [destruct K|cbn; lia]. }
  assert (Hend : peg lay_E s (fun i => loc_col (true_loc s i)) Z ex_wfree 0 (List.length s) (PFail false)).
  { unfold ex_wfree, seql. apply pg_seq_fail. unfold ex_digit. apply pg_fmap_fail, pg_label, pg_sat_end. apply nth_error_None. lia. }
  pose proof (stmts_pieces (good ++ l) 5 (true_loc s) [] Ho) as P. cbn [app List.length] in P. fold s in P. rewrite Fl in P.
  destruct (C76_several_mistakes char ex_V lay_E n Z ex_wfree s 5 scannerless_get_loc linecol_fmt (true_loc s) r _ WE W
    (scannerless_cohere _) (or_introl (scannerless_exact _)) P Hend H) as [_ K].
  destruct (K Lb) as (errs & v & ops & U1 & U2 & _ & L & _).
  assert (Og : Forall stmt_ok good) by (apply Forall_app in Ho; apply Ho).
  pose proof (stmts_items good (true_loc s) [] (stmts_text l) Og Hg) as I. rewrite <- Sg in I. cbn [app List.length] in I.
  destruct (C76_items_kept char ex_V lay_E n Z unit ex_wfree GEof s true 5 scannerless_get_loc linecol_fmt (true_loc s) r _ _ WE W
    (scannerless_cohere _) (or_introl (scannerless_exact _)) I H) as [K1 K2].
  destruct (K1 v U2) as [w ->]. exists errs, w. split; auto. split; auto. split; auto. apply K2; eauto.
Qed.
Print Assumptions C76_case.

(** a run with two mistakes, and one that is cut short *)
Example C76_case_runs :
  (exists r e e', scannerless_parse lay_E 12 ex_stmts (ex_str "1;2x;3;4y;5;") true = Ret r /\
     unwrap r false = Raises [e; e'] /\ unwrap r true = Returns [1; 2; 3; 4; 5]%Z /\
     ei_op e = Some (Skip 1) /\ ei_op e' = Some (Skip 1)) /\
  (exists r e, scannerless_parse lay_E 12 ex_stmts (ex_str "1;x;3;") true = Ret r /\
     unwrap r false = Raises [e] /\ unwrap r true = Returns [1]%Z /\ ei_op e = Some (Skip 4)).
Proof.
  split; [do 3 eexists|do 2 eexists]; repeat (split; [vm_compute; reflexivity|]); vm_compute; reflexivity.
Qed.
