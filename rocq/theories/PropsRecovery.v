(** Properties C01, C02, C04 - C07, C09 - C11, C25, C40 of properties.jsonl. *)
From Verif Require Import ApiProofs Examples.

(** ** C01  Recovery is transparent on valid input *)
Theorem C01_recovery_transparent :
  forall T V (E : env T V) n A (g : gram T V A) s mi mi' get fmt v,
  (exists r, parse E n g s false mi get fmt = Ret r /\ unwrap r false = Returns v) <->
  (exists r, parse E n g s true mi' get fmt = Ret r /\ unwrap r false = Returns v).
Proof. exact @recover_transparent. Qed.
Print Assumptions C01_recovery_transparent.

Theorem C01_same_exceptions :
  forall T V (E : env T V) n A (g : gram T V A) s mi mi' get fmt e,
  parse E n g s false mi get fmt = Raise e -> parse E n g s true mi' get fmt = Raise e.
Proof. exact @recover_same_exn. Qed.
Print Assumptions C01_same_exceptions.

(** the outcome of a finished run does not depend on the fuel *)
Theorem C01_fuel_independent :
  forall T V (E : env T V) n m A (g : gram T V A) s rec mi get fmt,
  parse E n g s rec mi get fmt <> NoFuel -> parse E m g s rec mi get fmt <> NoFuel ->
  parse E n g s rec mi get fmt = parse E m g s rec mi get fmt.
Proof. exact @parse_agree. Qed.
Print Assumptions C01_fuel_independent.

Example C01_case :
  match ex_parse "1+(2+3)" false 5, ex_parse "1+(2+3)" true 2 with
  | Ret r, Ret r' => unwrap r false = Returns 6%Z /\ unwrap r' false = Returns 6%Z
  | _, _ => False
  end.
Proof. vm_compute. auto. Qed.

(** ** C02  An invalid input is always reported, with at least one error *)
Theorem C02_invalid_is_reported :
  forall T V (E : env T V) n A (g : gram T V A) s mi get fmt r,
  parse E n g s false mi get fmt = Ret r ->
  (forall v, unwrap r false <> Returns v) ->
  forall rec mi' r', parse E n g s rec mi' get fmt = Ret r' ->
  exists errs, unwrap r' false = Raises errs /\ errs <> [].
Proof.
  intros T V E n A g s mi get fmt r H Hr rec mi' r' H'.
  assert (Hn : forall v, unwrap r' false <> Returns v).
  { intros v Hv. destruct rec.
    - destruct (proj2 (recover_transparent E n A g s mi mi' get fmt v)) as (r0 & H0 & Hv0); eauto.
      rewrite H in H0. injection H0 as <-. exact (Hr v Hv0).
    - assert (parse E n g s false mi get fmt = parse E n g s false mi' get fmt) by reflexivity.
      rewrite H, H' in H0. injection H0 as <-. exact (Hr v Hv). }
  destruct (unwrap r' false) as [v|errs] eqn:Hu; [destruct (Hn v eq_refl)|].
  exists errs. split; auto. eapply unwrap_nonempty; eauto.
Qed.
Print Assumptions C02_invalid_is_reported.

(** a value from unwrap(recover=True): the input is valid, or a repair exists
    and unwrap() reports it *)
Theorem C02_recovered_value :
  forall T V (E : env T V) n A (g : gram T V A) s mi get fmt r v,
  parse E n g s true mi get fmt = Ret r -> unwrap r true = Returns v ->
  (exists r', parse E n g s false mi get fmt = Ret r' /\ unwrap r' false = Returns v) \/
  (exists errs, unwrap r false = Raises errs /\ errs <> [] /\
     forall e, In e errs -> ei_op e <> None).
Proof.
  intros T V E n A g s mi get fmt r v H Hv.
  destruct (unwrap r false) as [w|errs] eqn:Hu.
  - left. apply (recover_transparent E n A g s mi mi get fmt v). exists r. split; auto.
    unfold unwrap in *. destruct (pr_result r) as [o|e|rc]; try congruence.
    destruct (rc_reps rc); congruence.
  - right. exists errs. split; auto. split; [eapply unwrap_nonempty; eauto|].
    destruct (unwrap_repair _ _ _ _ _ _ _ _ _ _ _ H Hv Hu) as (rc & rep & _ & _ & _ & ->).
    intros e He. apply in_map_iff in He as (o & <- & _). discriminate.
Qed.
Print Assumptions C02_recovered_value.

Example C02_case :
  match ex_parse "1+(2" false 5, ex_parse "1+(2" true 5 with
  | Ret r, Ret r' =>
      (exists e, unwrap r false = Raises [e]) /\ unwrap r' true = Returns 3%Z /\
      exists e, unwrap r' false = Raises [e]
  | _, _ => False
  end.
Proof. vm_compute. split; [|split]; eauto. Qed.

(** ** C04  A successful parse consumes exactly a sentence of the grammar *)
Theorem C04_success_is_sentence :
  forall T V (E : env T V) n A (g : gram T V A) s rec mi get fmt r o,
  wf_env E -> wf g ->
  parse E n g s rec mi get fmt = Ret r -> pr_result r = ROk o ->
  ok_pos o <= List.length s /\ ok_con o = Nat.ltb 0 (ok_pos o) /\
  lang E A g (map inl (slice s 0 (ok_pos o))) (ok_val o).
Proof. exact @parse_success. Qed.
Print Assumptions C04_success_is_sentence.

(** the same for a parser run in the middle of the stream *)
Theorem C04_success_anywhere :
  forall T V (E : env T V) n A (g : gram T V A) s pos c o,
  wf_env E -> wf g -> pos <= List.length s ->
  fast E n g s pos c = Ret (SOk o) ->
  pos <= ok_pos o <= List.length s /\ ok_con o = Nat.ltb pos (ok_pos o) /\
  lang E A g (map inl (slice s pos (ok_pos o))) (ok_val o).
Proof.
  intros T V E n A g s pos c o HE Hg Hp H.
  apply (fast_good E s _ _ _ True (any_system s True)) in H; auto.
  - destruct H as (H1 & H2 & H3 & _). repeat split; auto; try lia.
    eapply ederiv_sentence; eauto.
  - intros d. apply gok_wf; auto.
  - apply gok_wf; auto.
  - exact I.
Qed.
Print Assumptions C04_success_anywhere.

Example C04_case :
  wf_env ex_E /\ wf ex_top /\
  match ex_parse "1+(2+3)" false 5 with
  | Ret r => match pr_result r with ROk o => ok_pos o = 7 /\ ok_val o = 6%Z | _ => False end
  | _ => False
  end.
Proof. split; [exact ex_wf_E|]. split; [exact ex_wf|]. vm_compute. auto. Qed.

(** ** C05  Repairs are sound *)
(** every repair offered, for every location function *)
Theorem C05_repairs_sound :
  forall T V (E : env T V) n A (g : gram T V A) s mi get fmt r rc rep,
  wf_env E -> wf g ->
  parse E n g s true mi get fmt = Ret r -> pr_result r = RRec rc -> In rep (rc_reps rc) ->
  exists es,
    edits_in es = slice s 0 (r_pos rep) /\ r_pos rep <= List.length s /\
    map op_op (r_ops rep) = map fst (edits_ops 0 es) /\
    lang E A g (edits_out es) (r_val rep) /\ edits_from E g es.
Proof. exact @repair_script. Qed.
Print Assumptions C05_repairs_sound.

(** what the user sees: the value of unwrap(recover=True) and the errors of
    unwrap(), with the locations of the operations *)
Theorem C05_reported_repair_sound :
  forall T V (E : env T V) n A (g : gram T V A) s mi get fmt r v errs locof,
  wf_env E -> wf g -> cohere get s locof -> lay_ok E g s locof ->
  parse E n g s true mi get fmt = Ret r ->
  unwrap r true = Returns v -> unwrap r false = Raises errs ->
  exists es j,
    edits_in es = slice s 0 j /\ j <= List.length s /\
    Forall2 (reports locof fmt) errs (edits_ops 0 es) /\
    lang E A g (edits_out es) v /\ edits_from E g es.
Proof.
  intros T V E n A g s mi get fmt r v errs locof HE Hg Hco Hl H Hv He.
  destruct (unwrap_repair _ _ _ _ _ _ _ _ _ _ _ H Hv He) as (rc & rep & Hr & Hin & -> & ->).
  destruct (repair_script_loc _ _ _ _ _ _ _ _ _ _ _ _ HE Hg Hco Hl H Hr Hin)
    as (es & H1 & H2 & H3 & H4 & H5 & H6 & H7).
  exists es, (r_pos rep). auto.
Qed.
Print Assumptions C05_reported_repair_sound.

Example C05_case :
  wf_env ex_E /\ wf ex_top /\
  cohere scannerless_get_loc (ex_str "1+(2+") (true_loc (ex_str "1+(2+")) /\
  lay_ok ex_E ex_top (ex_str "1+(2+") (true_loc (ex_str "1+(2+")) /\
  match ex_parse "1+(2+" true 5 with
  | Ret r => unwrap r true = Returns 3%Z /\
      (exists e1 e2, unwrap r false = Raises [e1; e2]) /\
      match pr_result r with RRec rc => List.length (rc_reps rc) = 2 | _ => False end
  | _ => False
  end.
Proof.
  split; [exact ex_wf_E|]. split; [exact ex_wf|].
  split; [apply scannerless_cohere|]. split; [left; apply scannerless_exact|].
  vm_compute. split; [|split]; eauto.
Qed.

(** ** C06  The chosen repair is the cheapest one offered *)
Theorem C06_cheapest_chosen :
  forall T V (E : env T V) n A (g : gram T V A) s mi get fmt r rc,
  parse E n g s true mi get fmt = Ret r -> pr_result r = RRec rc -> rc_reps rc <> [] ->
  exists rep, first_best (rc_reps rc) rep /\
    unwrap r true = Returns (r_val rep) /\
    unwrap r false = Raises (map (fun o => ErrorItem (op_loc o) (fmt (op_loc o)) (op_exp o) (Some (op_op o))) (r_ops rep)).
Proof. exact @unwrap_best. Qed.
Print Assumptions C06_cheapest_chosen.

(** the cost stored in every repair is the reported cost *)
Theorem C06_cost_is_reported :
  forall T V (E : env T V) n A (g : gram T V A) s mi get fmt r rc rep,
  parse E n g s true mi get fmt = Ret r -> pr_result r = RRec rc -> In rep (rc_reps rc) ->
  r_cost rep = reported_cost rep /\ r_ops rep <> [].
Proof.
  intros T V E n A g s mi get fmt r rc rep H Hr Hin.
  destruct (parse_basic _ _ _ _ _ _ _ _ _ _ _ H Hr Hin) as (H1 & H2 & _).
  split; [exact H2|]. intros H0. rewrite H0 in H1. contradiction.
Qed.
Print Assumptions C06_cost_is_reported.

Example C06_case :
  match ex_parse "1+(2" true 5 with
  | Ret r => match pr_result r with
             | RRec rc => rc_reps rc <> [] | _ => False end
  | _ => False
  end.
Proof. vm_compute. discriminate. Qed.
(** ... and a choice between two repairs: skipping one token (cost 1, farther)
    wins over inserting (cost 1) *)
Example C06_two_repairs :
  match parse ex_E 9 (ex_sym "b") (ex_str "ab") true 5 default_get_loc default_fmt_loc with
  | Ret r => match pr_result r with
             | RRec rc => map r_pos (rc_reps rc) = [0; 2] /\
                 exists e, unwrap r false = Raises [e] /\ ei_op e = Some (Skip 1)
             | _ => False end
  | _ => False
  end.
Proof. vm_compute. eauto. Qed.

(** ** C07  Reported errors are ordered and inside the input *)
Theorem C07_errors_ordered :
  forall T V (E : env T V) n A (g : gram T V A) s mi get fmt r v errs locof,
  wf_env E -> wf g -> cohere get s locof -> lay_ok E g s locof ->
  parse E n g s true mi get fmt = Ret r ->
  unwrap r true = Returns v -> unwrap r false = Raises errs ->
  exists ops, Forall2 (reports locof fmt) errs ops /\
    ops_sorted 0 (List.length s) ops.
Proof.
  intros T V E n A g s mi get fmt r v errs locof HE Hg Hco Hl H Hv He.
  destruct (unwrap_repair _ _ _ _ _ _ _ _ _ _ _ H Hv He) as (rc & rep & Hr & Hin & -> & ->).
  destruct (repair_script_loc _ _ _ _ _ _ _ _ _ _ _ _ HE Hg Hco Hl H Hr Hin)
    as (es & H1 & H2 & H3 & H4 & H5 & H6 & H7).
  exists (edits_ops 0 es). split; auto.
  clear - H6 H2. revert H6. generalize 0 at 1 3 as i. generalize (edits_ops 0 es) as l.
  induction l as [|[[k|x] p] l IH]; simpl; intros i H; intuition; lia.
Qed.
Print Assumptions C07_errors_ordered.

(** with the default location function the positions are the reported ones *)
Theorem C07_errors_ordered_default :
  forall T V (E : env T V) n A (g : gram T V A) s mi fmt r v errs,
  wf_env E -> wf g ->
  parse E n g s true mi default_get_loc fmt = Ret r ->
  unwrap r true = Returns v -> unwrap r false = Raises errs ->
  exists ops, map ei_op errs = map Some ops /\
    ops_sorted 0 (List.length s)
      (combine ops (map (fun e => Z.to_nat (loc_pos (ei_loc e))) errs)).
Proof.
  intros T V E n A g s mi fmt r v errs HE Hg H Hv He.
  destruct (C07_errors_ordered T V E n A g s mi _ fmt r v errs default_locof HE Hg
    (default_cohere s) (or_introl (default_exact s)) H Hv He) as (ops & H1 & H2).
  exists (map fst ops).
  assert (K : map ei_op errs = map Some (map fst ops) /\
              combine (map fst ops)
                (map (fun e => Z.to_nat (loc_pos (ei_loc e))) errs) = ops).
  { clear - H1. induction H1 as [|e [o p] errs ops (A1 & A2 & A3) Hr [IH1 IH2]]; simpl; auto.
    simpl in *. rewrite A2. unfold default_locof at 1. cbn [loc_pos]. rewrite Nat2Z.id.
    split; [rewrite A1; f_equal; exact IH1|]. f_equal. exact IH2. }
  destruct K as [K1 K2]. split; auto. rewrite K2. exact H2.
Qed.
Print Assumptions C07_errors_ordered_default.

Example C07_case :
  match parse ex_E 150 ex_top (ex_str "1++*(3") true 5 default_get_loc default_fmt_loc with
  | Ret r => exists v e1 e2, unwrap r true = Returns v /\
      unwrap r false = Raises [e1; e2] /\
      ei_op e1 = Some (Insert "value") /\ ei_op e2 = Some (Skip 2)
  | _ => False
  end.
Proof. vm_compute. do 3 eexists. repeat split; reflexivity. Qed.

(** ** C09  p << eof() accounts for the whole input *)
Theorem C09_eof_whole_input :
  forall T V (E : env T V) n A (g : gram T V A) s rec mi get fmt r,
  parse E n (seql g GEof) s rec mi get fmt = Ret r ->
  match pr_result r with
  | ROk o => ok_pos o = List.length s
  | RErr _ => True
  | RRec rc => forall rep, In rep (rc_reps rc) -> r_pos rep = List.length s
  end.
Proof. exact @parse_eof_ends. Qed.
Print Assumptions C09_eof_whole_input.

(** in words of the input: the whole of it is a sentence, or the script of the
    chosen repair edits the whole of it into a sentence *)
Theorem C09_eof_value :
  forall T V (E : env T V) n A (g : gram T V A) s rec mi get fmt r v,
  wf_env E -> wf g ->
  parse E n (seql g GEof) s rec mi get fmt = Ret r -> unwrap r true = Returns v ->
  lang E A (seql g GEof) (map inl s) v \/
  exists errs es, unwrap r false = Raises errs /\ edits_in es = s /\
    map ei_op errs = map Some (map fst (edits_ops 0 es)) /\
    lang E A (seql g GEof) (edits_out es) v.
Proof.
  intros T V E n A g s rec mi get fmt r v HE Hg H Hv.
  pose proof (parse_eof_ends _ _ _ _ _ _ _ _ _ _ H) as He.
  assert (Hw : wf (seql g GEof)) by (repeat split; simpl; auto; exact Hg).
  assert (Hs : slice s 0 (List.length s) = s).
  { unfold slice. rewrite Nat.sub_0_r. apply firstn_all. }
  destruct (pr_result r) as [o|e|rc] eqn:Hr.
  - left. simpl in He. destruct (parse_success _ _ _ _ _ _ _ _ _ _ _ HE Hw H Hr) as (_ & _ & Hl).
    unfold unwrap in Hv. rewrite Hr in Hv. injection Hv as <-. rewrite He, Hs in Hl. exact Hl.
  - unfold unwrap in Hv. rewrite Hr in Hv. discriminate.
  - right. destruct rec; [|apply parse_fast in H as [_ [sr [_ H]]]; destruct sr; simpl in H; congruence].
    destruct (unwrap r false) as [w|errs] eqn:Hu.
    + unfold unwrap in Hu. rewrite Hr in Hu. destruct (rc_reps rc); discriminate.
    + destruct (unwrap_repair _ _ _ _ _ _ _ _ _ _ _ H Hv Hu) as (rc' & rep & Hr' & Hin & -> & ->).
      rewrite Hr in Hr'. injection Hr' as <-. simpl in He. specialize (He _ Hin).
      destruct (repair_script _ _ _ _ _ _ _ _ _ _ _ HE Hw H Hr Hin) as (es & H1 & H2 & H3 & H4 & _).
      rewrite He, Hs in H1. exists (map (item_of_op fmt) (r_ops rep)), es.
      repeat split; auto. rewrite <- H3, !map_map. reflexivity.
Qed.
Print Assumptions C09_eof_value.

Example C09_case :
  match ex_parse "1+2)3" true 5 with
  | Ret r => unwrap r true = Returns 3%Z | _ => False end.
Proof. vm_compute. reflexivity. Qed.

(** ** C10  scannerless.parse reports true line and column numbers *)
Theorem C10_true_locations :
  forall V (E : env char V) n A (g : gram char V A) s rec r rec' errs,
  wf_env E -> wf g ->
  scannerless_parse E n g s rec = Ret r -> unwrap r rec' = Raises errs ->
  forall e, In e errs -> exists p, p <= List.length s /\ ei_loc e = true_loc s p /\
    ei_loc_str e = (str_of_Z (Z.of_nat (true_line s p) + 1) ++ ":" ++
                    str_of_Z (Z.of_nat (true_col s p) + 1))%string.
Proof.
  intros V E n A g s rec r rec' errs HE Hg H Hu e Hin.
  eapply (error_locs E n A g s rec 5 scannerless_get_loc linecol_fmt); eauto.
  - apply scannerless_cohere.
  - left. apply scannerless_exact.
Qed.
Print Assumptions C10_true_locations.

(** after recovery the positions are those of the operations performed *)
Theorem C10_true_locations_of_repairs :
  forall V (E : env char V) n A (g : gram char V A) s r v errs,
  wf_env E -> wf g ->
  scannerless_parse E n g s true = Ret r ->
  unwrap r true = Returns v -> unwrap r false = Raises errs ->
  exists es j,
    edits_in es = slice s 0 j /\ j <= List.length s /\
    Forall2 (reports (true_loc s) linecol_fmt) errs (edits_ops 0 es) /\
    lang E A g (edits_out es) v /\ edits_from E g es.
Proof.
  intros V E n A g s r v errs HE Hg H Hv He.
  eapply (C05_reported_repair_sound char V E n A g s 5 scannerless_get_loc linecol_fmt); eauto.
  - apply scannerless_cohere.
  - left. apply scannerless_exact.
Qed.
Print Assumptions C10_true_locations_of_repairs.

Example C10_case :
  match scannerless_parse lay_E 40 (seql lay_top GEof) lay_input true with
  | Ret r => exists e1, unwrap r false = Raises [e1] /\ ei_loc_str e1 = "3:2"%string
  | _ => False
  end.
Proof. vm_compute. eauto. Qed.

(** ** C11  Parser.parse with defaults reports stream positions *)
Theorem C11_default_locations :
  forall T V (E : env T V) n A (g : gram T V A) s rec mi r rec' errs,
  wf_env E -> wf g ->
  parse E n g s rec mi default_get_loc default_fmt_loc = Ret r ->
  unwrap r rec' = Raises errs ->
  forall e, In e errs -> exists p, p <= List.length s /\ ei_loc e = Loc (Z.of_nat p) 0 0 /\
    ei_loc_str e = str_of_Z (Z.of_nat p).
Proof.
  intros T V E n A g s rec mi r rec' errs HE Hg H Hu e Hin.
  eapply (error_locs E n A g s rec mi default_get_loc default_fmt_loc); eauto.
  - apply (default_cohere s).
  - left. apply default_exact.
Qed.
Print Assumptions C11_default_locations.

Theorem C11_default_locations_of_repairs :
  forall T V (E : env T V) n A (g : gram T V A) s mi r v errs,
  wf_env E -> wf g ->
  parse E n g s true mi default_get_loc default_fmt_loc = Ret r ->
  unwrap r true = Returns v -> unwrap r false = Raises errs ->
  exists es j,
    edits_in es = slice s 0 j /\ j <= List.length s /\
    Forall2 (reports (fun p => Loc (Z.of_nat p) 0 0) default_fmt_loc) errs (edits_ops 0 es) /\
    lang E A g (edits_out es) v /\ edits_from E g es.
Proof.
  intros T V E n A g s mi r v errs HE Hg H Hv He.
  eapply (C05_reported_repair_sound T V E n A g s mi default_get_loc default_fmt_loc); eauto.
  - apply (default_cohere s).
  - left. apply default_exact.
Qed.
Print Assumptions C11_default_locations_of_repairs.

Example C11_case :
  match parse ex_E 150 ex_top (ex_str "1++*(3") true 5 default_get_loc default_fmt_loc with
  | Ret r => match unwrap r false with
             | Raises errs => map ei_loc_str errs = ["2"; "3"]%string | _ => False end
  | _ => False
  end.
Proof. vm_compute. reflexivity. Qed.

(** ** C25  Column marks are lexically scoped *)
Theorem C25_mark_after_success :
  forall T V (E : env T V) n A (g : gram T V A) s pos c o,
  wf_env E -> wf g -> pos <= List.length s ->
  fast E n g s pos c = Ret (SOk o) -> ctx_mark (ok_ctx o) = ctx_mark c.
Proof. exact @marks_kept_ok. Qed.
Print Assumptions C25_mark_after_success.

Theorem C25_mark_after_repair :
  forall T V (E : env T V) n A (g : gram T V A) s pos c ins rem rc rep,
  wf_env E -> wf g -> pos <= List.length s ->
  full E n g s pos c ins rem = Ret (RRec rc) -> In rep (rc_reps rc) ->
  ctx_mark (r_ctx rep) = ctx_mark c.
Proof. exact @marks_kept_rep. Qed.
Print Assumptions C25_mark_after_repair.

Example C25_case :
  match fast lay_E 40 lay_top lay_input 0 (init_ctx scannerless_get_loc) with
  | Ret (SOk o) => ok_val o = [1; 2]%Z /\ ctx_mark (ok_ctx o) = 0%Z
  | _ => False
  end.
Proof. vm_compute. auto. Qed.
