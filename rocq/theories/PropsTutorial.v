(** Property C78: the list parser of the tutorial (docs/source/pages/tutorial.rst) does
    with every text what TutorialSpec.v says. *)
From Verif Require Import Fuel ApiSpec ApiProofs Locations RecSpec PropsRec LocSpec PropsLL Examples Simulation FirstSpec First PropsFirst PropsRecovery Readme TutorialTexts TutorialProofs.
From Verif Require Export TutorialSpec.
From Coq Require Import Lia.
Import ListNotations.

Section P.
Variable isdigit isspace : char -> bool.
Variable decimal : char -> option Z.
Notation list_parser := (list_parser isdigit isspace decimal).
Notation reading := (reading isdigit isspace decimal).
Notation all_decimal := (all_decimal isdigit decimal).
Notation number_list := (number_list isdigit isspace decimal).

Lemma tut_wf : wf list_parser.
Proof. unfold wf. cbn. repeat split. Qed.
Lemma tut_wf_E : wf_env tut_E.
Proof. intros d. cbn. auto. Qed.
Lemma tut_lay (s : list char) at_ : lay_ok tut_E list_parser s at_.
Proof. right. split; [cbn; tauto|intros d; cbn; tauto]. Qed.

Section Run.
Variables (s : list char) (at_ : nat -> loc) (fmt : loc -> string) (ins : Z).
Hypothesis AD : all_decimal s.
Hypothesis Hins : ins <> 0%Z.
Notation len := (List.length s).
Notation leftover := (leftover s).
Notation total := (total s).
Notation rs A g i rem o := (rsem tut_E s at_ A g 0%Z i ins rem o).

Definition finish (r : offer (list Z)) : offer (list Z) :=
  if f_pos r =? len then f_then_succ ins (fun l (_ : unit) => l) r tt len []
  else f_then_repair (fun l (_ : unit) => l) r (f_skip ins tt len (at_ (f_pos r)) (len - f_pos r) ["end of file"%string] false).
Lemma finish_all L : (forall x, In x L -> fine s x) ->
  rconts tut_E s at_ _ _ _ (fun _ => GEof) (fun l (_ : unit) => l) 0%Z ins L (inl (map finish L)).
Proof.
  induction L as [|r L IH]; intros H; [apply rc_nil|]. cbn [map]. unfold finish at 1.
  assert (K : forall x, In x L -> fine s x) by (intros x Hx; apply H; right; exact Hx). specialize (IH K).
  destruct (Nat.eqb_spec (f_pos r) len) as [Q|Q].
  - apply rc_succ; [|exact IH]. rewrite Q. apply rs_eof.
  - refine (rc_offer tut_E s at_ _ _ _ (fun _ => GEof) (fun l (_ : unit) => l) 0%Z ins r L None false (at_ (f_pos r)) ["end of file"%string]
      [f_skip ins tt len (at_ (f_pos r)) (len - f_pos r) ["end of file"%string] false] _ _ IH).
    apply rs_eof_skip. exact Q.
Qed.
Lemma finish_cost r : fine s r -> f_cost (finish r) = total r /\ f_pos (finish r) = len /\ f_rank (finish r) = Some 0.
Proof.
  intros (H1 & _ & _ & H). unfold finish, TutorialProofs.total. destruct (Nat.eqb_spec (f_pos r) len) as [Q|Q]; cbn; rewrite ?H1; repeat split; lia.
Qed.
Lemma finish_ops r ms : fine s r -> f_ops r = map (op_of at_) ms ->
  map (a_report fmt) (f_ops (finish r)) = map (shown at_ fmt) (ms ++ leftover (f_pos r) (f_exp r)).
Proof.
  intros (_ & H1 & _ & H) Hm. unfold finish, TutorialProofs.leftover. destruct (Nat.eqb_spec (f_pos r) len) as [Q|Q]; cbn -[map]; rewrite Hm.
  - rewrite app_nil_r, map_map. reflexivity.
  - rewrite !map_app, map_map. reflexivity.
Qed.
Lemma finish_val r : f_val (finish r) = f_val r.
Proof. unfold finish. destruct (_ =? _); reflexivity. Qed.
Lemma finish_chosen L r : (forall x, In x L -> fine s x) -> best total L r -> f_chosen (map finish L) (finish r).
Proof.
  intros H (l1 & l2 & -> & H1 & H2). exists (map finish l1), (map finish l2). rewrite map_app. split; [reflexivity|].
  destruct (finish_cost r (H r ltac:(apply in_or_app; right; left; reflexivity))) as (R1 & R2 & R3).
  split; intros y Hy; apply in_map_iff in Hy as (x & <- & Hx).
  - destruct (finish_cost x (H x ltac:(apply in_or_app; auto))) as (X1 & X2 & X3). left. rewrite R1, X1. auto.
  - destruct (finish_cost x (H x ltac:(apply in_or_app; right; right; auto))) as (X1 & X2 & X3). unfold f_better. rewrite R1, R2, R3, X1, X2, X3.
    specialize (H2 x Hx). intros [K|[_ [K|(_ & _ & K)]]]; [lia|lia|discriminate].
Qed.
Definition answer (rec : bool) : unwrapped (list Z) :=
  match snd (reading s) with
  | [] => Returns (fst (reading s))
  | ms => if rec then Returns (fst (reading s)) else Raises (map (shown at_ fmt) ms)
  end.
Lemma whole : exists o, rs _ list_parser 0 (Some ins) o /\ forall rec, verdict fmt rec o (answer rec).
Proof using AD Hins.
  destruct (whole_list isdigit isspace decimal s at_ AD 0 ins Hins (Some ins) ltac:(discriminate)) as (o & Ho & Hr).
  destruct o as [vs j Y|b l Y|nr b l Y L|e]; cbn [list_ok] in Ho; try tauto.
  - destruct Ho as [Hj Hrd].
    pose proof (fun o => rs_seq tut_E s at_ _ _ _ _ GEof (fun l _ => l) _ _ _ _ _ _ _ o Hr) as K.
    destruct (Nat.eqb_spec j len) as [->|Q].
    + eexists. split; [apply K, rs_eof|]. intros rec. cbn. unfold answer. rewrite Hrd. unfold TutorialProofs.leftover. rewrite Nat.eqb_refl. reflexivity.
    + assert (W : (if 0 <? j then Some ins else Some ins) = Some ins) by (destruct (0 <? j); reflexivity). rewrite W in K.
      eexists. split; [apply K, rs_eof_skip, Q|]. intros rec. cbn [on_rvalue r_after map verdict]. right.
      eexists. split; [exists [], []; split; [reflexivity|]; split; intros ? []|].
      unfold answer. rewrite Hrd. unfold TutorialProofs.leftover. destruct (Nat.eqb_spec j len) as [|_]; [contradiction|]. destruct rec; reflexivity.
  - destruct Ho as (r & ms & Hm & Hrd). pose proof (meets_fine _ _ _ _ _ Hm) as Hf. destruct Hm as (M1 & M2 & M3 & M4).
    eexists. split; [eapply (rs_seq_offer tut_E s at_ _ _ _ _ _ (fun l _ => l)); [exact Hr|apply finish_all; exact M2]|].
    intros rec. cbn [verdict]. right. exists (finish r). split; [apply finish_chosen; auto|].
    unfold answer. rewrite Hrd, (finish_ops r ms Hf M3), finish_val. cbn [fst snd].
    destruct ms as [|m0 ms]; [destruct M4; congruence|]. reflexivity.
Qed.
End Run.

(** ** With recovery: what is returned and what is reported, for every text *)
Theorem C78_every_text : forall src mi get fmt locof,
  mi <> 0%Z -> all_decimal src -> cohere get src locof ->
  exists n r, parse tut_E n list_parser src true mi get fmt = Ret r /\
    unwrap r true = Returns (fst (reading src)) /\
    unwrap r false = match snd (reading src) with
                     | [] => Returns (fst (reading src))
                     | ms => Raises (map (shown locof fmt) ms)
                     end.
Proof using.
  intros src mi get fmt locof Hm HD Hco. destruct (whole src locof fmt mi HD Hm) as (o & Ho & Hv).
  destruct (C44_recovery_semantics char tut_V tut_E _ list_parser src mi get fmt locof tut_wf_E tut_wf Hco (tut_lay _ _)) as [C _].
  pose proof (proj2 (C true (answer src locof fmt true)) (ex_intro _ o (conj Ho (Hv true)))) as (n & r & H & U).
  pose proof (proj2 (C false (answer src locof fmt false)) (ex_intro _ o (conj Ho (Hv false)))) as (n' & r' & H' & U').
  assert (Q : parse tut_E n list_parser src true mi get fmt = parse tut_E n' list_parser src true mi get fmt).
  { apply parse_agree; intros P; [discriminate (eq_trans (eq_sym H) P)|discriminate (eq_trans (eq_sym H') P)]. }
  assert (r' = r) by congruence. subst r'. exists n, r. split; [exact H|]. rewrite U, U'. unfold answer.
  destruct (snd (reading src)); auto.
Qed.
Print Assumptions C78_every_text.

(** ** parse_list *)
Theorem C78_parse_list : forall src, all_decimal src ->
  exists n, parse_list isdigit isspace decimal n src = Ret
    match snd (reading src) with
    | [] => Returns (fst (reading src))
    | ms => Raises (map (shown (true_loc src) linecol_fmt) ms)
    end.
Proof using.
  intros src HD.
  destruct (C78_every_text src 5 scannerless_get_loc linecol_fmt (true_loc src) ltac:(discriminate) HD (scannerless_cohere src)) as (n & r & H & _ & U).
  exists n. unfold parse_list. unfold scannerless_parse. rewrite H. cbn [obind]. rewrite U. reflexivity.
Qed.
Print Assumptions C78_parse_list.

(** no other result is possible, whatever the number of steps *)
Lemma parse_list_agree n m src a b : parse_list isdigit isspace decimal n src = Ret a -> parse_list isdigit isspace decimal m src = Ret b -> a = b.
Proof using.
  unfold parse_list, scannerless_parse. intros H K.
  destruct (parse tut_E n list_parser src true 5 scannerless_get_loc linecol_fmt) as [x| |] eqn:P; try discriminate H.
  destruct (parse tut_E m list_parser src true 5 scannerless_get_loc linecol_fmt) as [y| |] eqn:Q; try discriminate K.
  assert (R : parse tut_E n list_parser src true 5 scannerless_get_loc linecol_fmt = parse tut_E m list_parser src true 5 scannerless_get_loc linecol_fmt)
    by (apply parse_agree; intros Z; congruence).
  rewrite P, Q in R. injection R as <-. cbn in H, K. congruence.
Qed.

(** It accepts exactly the lists of numbers, and returns the numbers. *)
Theorem C78_accepts : forall src l, tut_chars isdigit isspace -> all_decimal src ->
  (exists n, parse_list isdigit isspace decimal n src = Ret (Returns l)) <-> number_list src l.
Proof using.
  intros src l TC HD. destruct (C78_parse_list src HD) as (n & H). split.
  - intros (m & K). pose proof (parse_list_agree _ _ _ _ _ H K) as Q.
    apply (reading_list isdigit isspace decimal TC); [exact HD|]. destruct (reading src) as [l' ms]. cbn in Q. destruct ms; congruence.
  - intros K. apply (list_reading isdigit isspace decimal TC) in K. exists n. rewrite H, K. reflexivity.
Qed.
Print Assumptions C78_accepts.

(** If only numbers are missing behind commas, then the placeholder stands for each
    of them, each is reported where it is missing, and nothing else is. *)
Lemma decimal_decimals x z : decimal_text isdigit decimal x z -> all_decimal x.
Proof using.
  induction 1 as [c d H K|x z c d H IH H1 K]; intros y Hy Hd.
  - destruct Hy as [->|[]]. congruence.
  - apply in_app_or in Hy as [Hy|[->|[]]]; [exact (IH y Hy Hd)|congruence].
Qed.
Lemma all_app (a b : list char) : all_decimal a -> all_decimal b -> all_decimal (a ++ b).
Proof using. intros H K c Hc. apply in_app_or in Hc as [Hc|Hc]; auto. Qed.
Lemma all_white w : tut_chars isdigit isspace -> white isspace w -> all_decimal w.
Proof using.
  intros TC W c Hc Hd. unfold white in W. rewrite Forall_forall in W. pose proof (W c Hc). rewrite (tc_digit _ _ TC c Hd) in H. discriminate.
Qed.
Lemma all_comma w : tut_chars isdigit isspace -> all_decimal w -> all_decimal (44%N :: w).
Proof using.
  intros TC W c [<-|Hc] Hd; [|exact (W c Hc Hd)]. destruct (tc_comma _ _ TC). congruence.
Qed.
Scheme gapped_rect := Induction for gapped Sort Prop with gaps_rect := Induction for gaps Sort Prop.
Lemma gapped_decimal (TC : tut_chars isdigit isspace) : forall s l ps, gapped isdigit isspace decimal s l ps -> all_decimal s.
Proof using.
  apply (gapped_rect isdigit isspace decimal (fun s _ _ _ => all_decimal s) (fun s _ _ _ => all_decimal s)); cbn zeta;
    intros; repeat first [apply all_app|apply (all_comma _ TC)]; eauto using decimal_decimals, all_white.
  intros c [].
Qed.
Theorem C78_missing_numbers : forall w src l ps, tut_chars isdigit isspace ->
  white isspace w -> gapped isdigit isspace decimal src l ps ->
  let here p := {| ei_loc := true_loc (w ++ src) (List.length w + p); ei_loc_str := linecol_fmt (true_loc (w ++ src) (List.length w + p));
                   ei_expected := ["number"%string]; ei_op := Some (Insert "0") |} in
  exists n r, scannerless_parse tut_E n list_parser (w ++ src) true = Ret r /\
    unwrap r true = Returns l /\
    unwrap r false = if ps then Returns l else Raises (map here ps).
Proof using.
  intros w src l ps TC W G here.
  assert (HD : all_decimal (w ++ src)) by (apply all_app; [apply all_white; assumption|apply (gapped_decimal TC _ _ _ G)]).
  destruct (C78_every_text (w ++ src) 5 scannerless_get_loc linecol_fmt (true_loc (w ++ src)) ltac:(discriminate) HD (scannerless_cohere _)) as (n & r & H & U & U').
  exists n, r. split; [exact H|]. rewrite U, U', (reading_gaps isdigit isspace decimal TC w src l ps W G). cbn [fst snd]. split; [reflexivity|].
  destruct ps as [|p ps]; [reflexivity|]. cbn [map]. rewrite map_map. reflexivity.
Qed.
Print Assumptions C78_missing_numbers.

(** ** Without recovery: the first mistake, and nothing more *)
Lemma tut_attempt_free : attempt_free tut_E list_parser.
Proof using. apply everywhere_gall; [intros d|]; solve_gall. Qed.
Lemma tut_single : single_withs tut_E list_parser.
Proof using. apply everywhere_gall; [intros d|]; solve_gall; intros H; apply bare_inv in H; cbn in H;
  destruct H as [H|(v & _ & H)]; apply bare_inv in H; exact H.
Qed.
Theorem C78_plain : forall src mi get fmt locof,
  all_decimal src -> cohere get src locof ->
  exists n r, parse tut_E n list_parser src false mi get fmt = Ret r /\
    unwrap r false = match snd (reading src) with
                     | [] => Returns (fst (reading src))
                     | m :: _ => Raises [{| ei_loc := locof (mk_pos m); ei_loc_str := fmt (locof (mk_pos m)); ei_expected := mk_exp m; ei_op := None |}]
                     end.
Proof using.
  intros src mi get fmt locof HD Hco.
  destruct (C78_every_text src 1 get fmt locof ltac:(discriminate) HD Hco) as (n & r & H & U & U').
  pose proof (sim_fast_full tut_E n _ list_parser src 0 (init_ctx get) 1 (Some 1%Z)) as S0.
  assert (P : exists r0, parse tut_E n list_parser src false mi get fmt = Ret r0).
  { unfold parse in *. destruct (fast tut_E n list_parser src 0 (init_ctx get)) as [x| |]; cbn in S0.
    - eexists. reflexivity.
    - rewrite S0 in H. discriminate.
    - rewrite S0 in H. discriminate. }
  destruct P as (r0 & P). exists n, r0. split; [exact P|].
  destruct (snd (reading src)) as [|m ms] eqn:Q.
  - destruct (C01_recovery_transparent _ _ tut_E n _ list_parser src mi 1 get fmt (fst (reading src))) as [_ C].
    destruct C as (r1 & P1 & U1); [exists r; auto|]. congruence.
  - destruct (unwrap r0 false) as [v|e] eqn:U0.
    + destruct (C01_recovery_transparent _ _ tut_E n _ list_parser src mi 1 get fmt v) as [C _].
      destruct C as (r1 & P1 & U1); [exists r0; auto|]. congruence.
    + destruct (C12_first_error _ _ tut_E n n _ list_parser src mi 1 get fmt r0 r e locof tut_wf_E tut_wf Hco (tut_lay _ _) tut_attempt_free tut_single P U0 H)
        as (e0 & e1 & tl & -> & R & L1 & L2 & L3). rewrite U' in R. cbn [map] in R. injection R as R _. subst e1. cbn in *.
      destruct e0 as [a b c d]. cbn in *.
      assert (d = None).
      { unfold parse in P. destruct (fast tut_E n list_parser src 0 (init_ctx get)) as [[x|x]| |]; try discriminate P; injection P as <-; [discriminate U0|].
        cbn in U0. injection U0 as _ _ _ <-. reflexivity. }
      subst. rewrite L3 by discriminate. reflexivity.
Qed.
Print Assumptions C78_plain.

(** ** Exceptions: digits that are not decimal ([str.isdigit] is true of them, but
    [int] refuses them) *)
Lemma int_raise x a : (exists c, In c x /\ decimal c = None) -> fold_left (int_step decimal) x (Ret a) = Raise (UserExn "ValueError").
Proof using.
  assert (R : forall x, fold_left (int_step decimal) x (Raise (UserExn "ValueError")) = Raise (UserExn "ValueError")) by (induction x0; [reflexivity|exact IHx0]).
  revert a. induction x as [|c x IH]; intros a (d & Hd & N); [destruct Hd|]. cbn [fold_left]. unfold int_step at 2. cbn.
  destruct (decimal c) as [z|] eqn:Q; [|apply R]. apply IH. destruct Hd as [<-|Hd]; [congruence|eauto].
Qed.
Theorem C78_not_decimal : forall w x t c, tut_chars isdigit isspace ->
  white isspace w -> Forall (fun c => isdigit c = true) x -> (forall c t', t = c :: t' -> isdigit c = false) ->
  In c x -> decimal c = None ->
  exists n, parse_list isdigit isspace decimal n (w ++ x ++ t) = Raise (UserExn "ValueError").
Proof using.
  intros w x t c TC W D Ht Hc Hn. set (src := w ++ x ++ t). set (i := List.length w).
  assert (Hx : exists c0 x', x = c0 :: x') by (destruct x; [destruct Hc|eauto]). destruct Hx as (c0 & x' & ->).
  assert (D0 : isdigit c0 = true) by (inversion D; assumption).
  assert (Pw : prefix isspace src = i).
  { apply prefix_app; [exact W|]. intros y t' Q. injection Q as <- _. apply (tc_digit _ _ TC). exact D0. }
  destruct (C44_recovery_semantics char tut_V tut_E _ list_parser src 5 scannerless_get_loc linecol_fmt (true_loc src) tut_wf_E tut_wf (scannerless_cohere src) (tut_lay _ _)) as [_ C].
  specialize (C (UserExn "ValueError")).
  assert (G : rsem tut_E src (true_loc src) _ list_parser 0 0 5 (Some 5%Z) (RExn (UserExn "ValueError"))).
  2: { apply C in G as (n & G). exists n. unfold parse_list, scannerless_parse. rewrite G. reflexivity. }
  pose proof (spaces_run isspace src (true_loc src) 0 5 0 (Some 5%Z)) as K. cbn [Nat.add skipn] in K. rewrite Pw in K.
  apply rs_seq_exn. refine (rs_seq tut_E src _ _ _ _ _ _ (fun _ r => r) _ _ _ _ _ _ _ (RExn _) K _).
  apply rs_fmap_exn. refine (rs_maybe tut_E src _ _ _ _ _ _ _ (RExn _) _ I).
  apply rs_seq_exn, rs_with_none, rs_seq_exn. refine (rs_label tut_E src _ _ _ "number"%string _ _ _ _ (RExn _) _).
  assert (S1 : skipn i src = (c0 :: x') ++ t) by apply skipn_len.
  assert (S2 : skipn (i + 1) src = x' ++ t) by (rewrite <- (skipn_add src i 1), S1; reflexivity).
  assert (N : nth_error src i = Some c0).
  { rewrite <- (Nat.add_0_r i), <- nth_skipn, S1. reflexivity. }
  pose proof (digit_hit isdigit src (true_loc src) 0 5 i c0 None N D0) as K1.
  pose proof (digits_run isdigit src (true_loc src) 0 5 (i + 1) (if i <? i + 1 then Some 5%Z else None)) as K2.
  pose proof (rs_seq tut_E src (true_loc src) _ _ _ _ _ (fun l r => (l, r)) _ _ _ None _ _ _ _ K1 K2) as K3.
  cbn [r_after on_rvalue] in K3. eapply rs_fmap_raise; [exact K3|].
  rewrite S2, (prefix_app isdigit x' t) by (try inversion D; assumption). rewrite firstn_len. cbn [fst snd].
  apply int_raise. exists c. auto.
Qed.
Print Assumptions C78_not_decimal.
End P.

(** ** Cases: ASCII characters, and the texts of the tutorial *)
Definition dec (c : char) : option Z := if ascii_digit c then Some (ascii_dval c) else None.
Lemma ascii_tut : tut_chars ascii_digit ascii_space.
Proof.
  split; [|split; reflexivity]. intros c H. unfold ascii_digit, ascii_space in *.
  apply andb_prop in H as [H1 H2]. apply N.leb_le in H1, H2. apply Bool.orb_false_intro; apply Bool.andb_false_iff; right; apply N.leb_gt; lia.
Qed.
Lemma ascii_decimal src : all_decimal ascii_digit dec src.
Proof. intros c _ H. unfold dec. rewrite H. discriminate. Qed.

Definition tut_read (x : string) := reading ascii_digit ascii_space dec (ex_str x).
(** "1,,,2 3" (tutorial.rst:172-186) *)
Example C78_case : tut_read "1,,,2 3" =
  ([1; 0; 0; 2]%Z, [{| mk_pos := 2; mk_op := Insert "0"; mk_exp := ["number"] |};
                    {| mk_pos := 3; mk_op := Insert "0"; mk_exp := ["number"] |};
                    {| mk_pos := 6; mk_op := Skip 1; mk_exp := ["','"; "end of file"] |}]%string).
Proof. reflexivity. Qed.
(** what the model does with it, computed *)
Example C78_case_run :
  match scannerless_parse tut_E 20 (list_parser ascii_digit ascii_space dec) (ex_str "1, ,2 3") true with
  | Ret r => unwrap r true = Returns [1; 0; 2]%Z /\
      match unwrap r false with
      | Raises [a; b] => (ei_loc_str a, ei_op a, ei_loc_str b, ei_op b) = ("1:4", Some (Insert "0"), "1:7", Some (Skip 1))%string
      | _ => False
      end
  | _ => False
  end.
Proof. vm_compute. split; reflexivity. Qed.
(** junk before a number is skipped when that is cheaper than the placeholder and the
    loss of the rest; the placeholder is preferred at the same price *)
Example C78_case_junk : tut_read "1,a2" = ([1; 2], [{| mk_pos := 2; mk_op := Skip 1; mk_exp := ["number"] |}])%Z%string /\
  tut_read "1,abc,2" = ([1; 2], [{| mk_pos := 2; mk_op := Skip 4; mk_exp := ["number"] |}])%Z%string /\
  tut_read "1,,2" = ([1; 0; 2], [{| mk_pos := 2; mk_op := Insert "0"; mk_exp := ["number"] |}])%Z%string.
Proof. repeat split; reflexivity. Qed.
(** a list, and a text with three gaps *)
Example C78_case_list : number_list ascii_digit ascii_space dec (ex_str " 1, 23") [1; 23]%Z.
Proof. apply (reading_list _ _ _ ascii_tut); [apply ascii_decimal|reflexivity]. Qed.
Example C78_case_gaps : gapped ascii_digit ascii_space dec (ex_str "1,, ,2,") [1; 0; 0; 2; 0]%Z [2; 4; 7].
Proof.
  assert (D : forall c d, ascii_digit c = true -> dec c = Some d -> decimal_text ascii_digit dec [c] d) by (intros; apply dt_one; assumption).
  assert (W : white ascii_space [32%N]) by (constructor; [reflexivity|constructor]).
  assert (W0 : white ascii_space []) by constructor.
  apply (gp_gap _ _ _ (ex_str "1") 1 [] [] (ex_str ", ,2,") [0; 2; 0]%Z [2; 5]); auto; [apply D; reflexivity|].
  apply (ga_gap _ _ _ [32%N] (ex_str ",2,") [2; 0]%Z [3]); auto.
  apply (ga_number _ _ _ [] (ex_str "2,") [2; 0]%Z [2]); auto.
  apply (gp_gap _ _ _ (ex_str "2") 2 [] [] [] [] []); auto; [apply D; reflexivity|apply ga_last].
Qed.
(** the superscript two is a digit, but not a decimal one *)
Example C78_case_not_decimal :
  let digit c := (ascii_digit c || N.eqb c 178)%bool in
  tut_chars digit ascii_space /\ parse_list digit ascii_space dec 20 [178%N] = Raise (UserExn "ValueError").
Proof.
  split; [|reflexivity]. split; [|split; reflexivity]. intros c H. apply Bool.orb_true_iff in H as [H|H]; [exact (tc_digit _ _ ascii_tut c H)|].
  apply N.eqb_eq in H as ->. reflexivity.
Qed.
