(** Properties C55 and C56: related parsers on related inputs. *)
From Verif Require Import Param Locations RunLemmas Laws Examples PropsLexer.

Section Unwrap.
Context {T1 T2 : Type} {V1 V2 : nat -> Type}.
Variable s1 : list T1.
Variable s2 : list T2.
Variables k1 k2 : nat.
Variable lay : Prop.
Variable get1 : loc -> list T1 -> nat -> loc.
Variable get2 : loc -> list T2 -> nat -> loc.
Variables locof1 locof2 : nat -> loc.
Variable D : Z.
Notation rrel := (rrel s1 k1 k2 lay get1 get2 locof1 locof2 D).
Notation reprel := (reprel s1 k1 k2 lay get1 get2 locof1 locof2 D).

Lemma key_rel {A B} (R : A -> B -> Prop) i a a' b b' : reprel R i a a' -> reprel R i b b' -> key_lt a b = key_lt a' b'.
Proof.
  intros [Ca Pa _ _ _ (j & _ & _ & Ja & Ja' & _) _ _] [Cb Pb _ _ _ (k & _ & _ & Jb & Jb' & _) _ _].
  unfold key_lt. rewrite Ca, Cb, Pa, Pb, Ja, Ja', Jb, Jb'.
  replace (Nat.ltb (k1 + k) (k1 + j)) with (Nat.ltb (k2 + k) (k2 + j)).
  2:{ destruct (Nat.ltb_spec (k1 + k) (k1 + j)), (Nat.ltb_spec (k2 + k) (k2 + j)); auto; lia. }
  replace (Nat.eqb (k1 + j) (k1 + k)) with (Nat.eqb (k2 + j) (k2 + k)); auto.
  destruct (Nat.eqb_spec (k1 + j) (k1 + k)), (Nat.eqb_spec (k2 + j) (k2 + k)); auto; lia.
Qed.
Lemma min_rel {A B} (R : A -> B -> Prop) i l l' : Forall2 (reprel R i) l l' -> forall x x', reprel R i x x' ->
  reprel R i (py_min x l) (py_min x' l').
Proof.
  induction 1 as [|y y' l l' Hy Hl IH]; intros x x' Hx; simpl; auto.
  rewrite (key_rel R i y y' x x') by auto. destruct (key_lt y' x'); auto.
Qed.
Lemma unwrap_rel {A B} (R : A -> B -> Prop) i (x : res T1 A) (y : res T2 B) fmt fmt' : rrel R i x y ->
  forall b, unwraprel s1 k1 k2 locof1 locof2 R fmt fmt' (unwrap (ResultWrapper x fmt) b) (unwrap (ResultWrapper y fmt') b).
Proof.
  intros H b. unfold unwrap. destruct x as [o|e|r], y as [o'|e'|r']; simpl in *; try contradiction.
  - apply H.
  - constructor; [|constructor]. destruct H as [L X _]. split; simpl; auto.
  - destruct H as [Reps _ L X _]. destruct Reps as [|a a' l l' Ha Hl].
    + constructor; [|constructor]. split; simpl; auto.
    + pose proof (min_rel R i l l' Hl a a' Ha) as [_ _ _ Ops Vals _ _ _].
      destruct b; simpl; auto. eapply F2_map; [|exact Ops]. intros p p' [O1 O2 O3 O4]. split; simpl; auto.
      repeat split; auto. congruence.
Qed.
End Unwrap.

(** ** C55  Parsers see tokens only through their tests and callbacks: related
    parsers on related inputs give related outcomes, the same operations and
    expected values at corresponding positions. *)
Theorem C55_related :
  forall T1 T2 V1 V2 (E1 : env T1 V1) (E2 : env T2 V2) RT RV A B (R : A -> B -> Prop)
    (g1 : gram T1 V1 A) (g2 : gram T2 V2 B) s1 s2 get1 get2 fmt1 fmt2 locof1 locof2 (lay : Prop) n rec mi,
  cohere get1 s1 locof1 -> cohere get2 s2 locof2 ->
  (lay -> exactpos s1 locof1 /\ exactpos s2 locof2 /\
     forall i, i <= List.length s1 -> loc_col (locof1 i) = loc_col (locof2 i)) ->
  Forall2 RT s1 s2 ->
  (forall d, grel RT RV s1 s2 0 0 lay (V1 d) (V2 d) (RV d) (E1 d) (E2 d)) ->
  grel RT RV s1 s2 0 0 lay A B R g1 g2 ->
  outrel (fun r1 r2 => forall b, unwraprel s1 0 0 locof1 locof2 R fmt1 fmt2 (unwrap r1 b) (unwrap r2 b))
    (parse E1 n g1 s1 rec mi get1 fmt1) (parse E2 n g2 s2 rec mi get2 fmt2).
Proof.
  intros T1 T2 V1 V2 E1 E2 RT RV A B R g1 g2 s1 s2 get1 get2 fmt1 fmt2 locof1 locof2 lay n rec mi H1 H2 HL Hs HE Hg.
  assert (HC : crel 0 0 lay get1 get2 locof1 locof2 0 0 (init_ctx get1) (init_ctx get2)).
  { split; [apply pos_init|]. split; [apply pos_init|]. simpl. auto. }
  assert (Hcol : lay -> forall i, i <= List.length s1 - 0 ->
    loc_col (locof1 (0 + i)%nat) = (loc_col (locof2 (0 + i)%nat) + 0)%Z).
  { intros L i Hi. destruct (HL L) as (_ & _ & HL'). simpl. rewrite Z.add_0_r. apply HL'. lia. }
  pose proof (fun L => proj1 (HL L)) as X1. pose proof (fun L => proj1 (proj2 (HL L))) as X2.
  unfold parse. destruct rec.
  - pose proof (full_param E1 E2 RT RV s1 s2 0 0 lay get1 get2 locof1 locof2 0 H1 H2 X1 X2
      ltac:(lia) ltac:(lia) Hs Hcol HE n A B R g1 g2 Hg 0 _ _ mi (Some mi) ltac:(lia) HC) as K. simpl in K.
    destruct (full E1 n g1 s1 0 (init_ctx get1) mi (Some mi)), (full E2 n g2 s2 0 (init_ctx get2) mi (Some mi));
      simpl in *; try contradiction; auto.
    eapply unwrap_rel. exact K.
  - pose proof (fast_param E1 E2 RT RV s1 s2 0 0 lay get1 get2 locof1 locof2 0 H1 H2 X1 X2
      ltac:(lia) ltac:(lia) Hs Hcol HE n A B R g1 g2 Hg 0 _ _ ltac:(lia) HC) as K. simpl in K.
    destruct (fast E1 n g1 s1 0 (init_ctx get1)), (fast E2 n g2 s2 0 (init_ctx get2));
      simpl in *; try contradiction; auto.
    eapply (unwrap_rel s1 0 0 lay get1 get2 locof1 locof2 0 R 0). destruct a, a0; exact K.
Qed.
Print Assumptions C55_related.

(** *** lexer.parse does not look at the locations of tokens: two sources (say,
    with other white space) that lex to tokens with the same kinds and values give
    the same outcome, with errors at corresponding tokens. *)
Theorem C55_token_locations :
  forall V (E : env token V) RV A B (R : A -> B -> Prop) (g : gram token V A) (g' : gram token V B) n s s' rec,
  (forall d, grel same_token RV s s' 0 0 False (V d) (V d) (RV d) (E d) (E d)) ->
  grel same_token RV s s' 0 0 False A B R g g' ->
  Forall2 same_token s s' ->
  outrel (fun r r' => forall b,
      unwraprel s 0 0 (loc_from_stream s) (loc_from_stream s') R linecol_fmt linecol_fmt (unwrap r b) (unwrap r' b))
    (lexer_parse E n g s rec) (lexer_parse E n g' s' rec).
Proof.
  intros V E RV A B R g g' n s s' rec HE Hg Hs.
  apply (C55_related token token V V E E same_token RV A B R g g' s s' _ _ _ _ _ _ False); auto;
    [apply lexer_cohere|apply lexer_cohere|intros []].
Qed.
Print Assumptions C55_token_locations.
(** the parsers of lexer.py and [sym] on tokens qualify *)
Theorem C55_token_parsers :
  forall V RV s s' lay kind v x lab repr,
  let G := grel (V1 := V) (V2 := V) same_token RV s s' 0 0 lay token token same_token in
  G (token_p kind) (token_p kind) /\ G (token_ins kind v) (token_ins kind v) /\
  G (sym token_eqb repr x lab) (sym token_eqb repr x lab).
Proof.
  intros V RV s s' lay kind v x lab repr G.
  assert (H : G (token_p kind) (token_p kind)).
  { constructor. apply gr_satisfy. intros t t' [H _]. rewrite H. reflexivity. }
  split; [exact H|]. split.
  - constructor; [exact H|]. intros i _. simpl. split; [split; reflexivity|reflexivity].
  - apply gr_sym; [|split; reflexivity]. intros t t' [H1 H2]. unfold token_eqb. rewrite H1, H2. reflexivity.
Qed.
Print Assumptions C55_token_parsers.

(** ** C56  Putting text in front of the input *)
Section Refl.
Context {T : Type} {V : nat -> Type}.
Variables w s : list T.
Variable lay : Prop.
Lemma F2_eq A (l l' : list A) : Forall2 eq l l' -> l = l'.
Proof. induction 1; congruence. Qed.
Lemma F2_refl A (R : A -> A -> Prop) l : (forall x, In x l -> R x x) -> Forall2 R l l.
Proof. induction l; intros H; constructor; auto; [apply H; left; auto|]. apply IHl. intros; apply H. right. auto. Qed.
Lemma out_eq A (x : out A) : outrel eq x x.
Proof. destruct x; simpl; auto. Qed.
Lemma grel_refl A (g : gram T V A) : gall (prefix_node w s lay) g ->
  grel eq (fun d => eq) (w ++ s) s (List.length w) 0 lay A A eq g g.
Proof.
  induction g; intros [(Hw & Hu & Hl) Hg]; try (constructor; simpl; auto; fail).
  - constructor. apply out_eq.
  - constructor. intros t t' ->. reflexivity.
  - constructor; auto. intros t t' ->. reflexivity.
  - eapply gr_weaken; [apply gr_literal|apply F2_eq].
    apply F2_refl. intros a _. split; auto. intros t t' ->. reflexivity.
  - constructor. intros i Hi. rewrite app_length in Hi. simpl. rewrite Hu by lia.
    destruct (m s i) as [[e v]|] eqn:Hm; simpl; auto. apply Hw in Hm; [|lia].
    exists e. rewrite app_length. split; [lia|]. split; [lia|]. split; auto. split; auto. destruct v; simpl; auto.
  - apply gr_fmap with (R := eq); auto. intros x y ->. apply out_eq.
  - destruct Hg. constructor; auto.
  - destruct Hg. apply gr_bind with (R := eq); auto. intros x y ->. auto.
  - destruct Hg. apply gr_seq with (R := eq) (Q := eq); auto. intros x y x' y' -> ->. auto.
  - eapply gr_weaken; [apply gr_maybe; eauto|]. intros [x|] [y|]; simpl; try contradiction; congruence.
  - eapply gr_weaken; [apply gr_many; eauto|]. apply F2_eq.
  - constructor; auto. intros i Hi. rewrite app_length in Hi. rewrite Hu by lia. simpl.
    destruct (fn s i); simpl; auto.
Qed.
End Refl.

Lemma starts_self T (teq : T -> T -> bool) w s : (forall a, In a w -> teq a a = true) -> starts_with teq w (w ++ s) 0 = true.
Proof.
  intros H. unfold starts_with. simpl. induction w as [|a w IH]; simpl; auto.
  rewrite (H a (or_introl eq_refl)). simpl. apply IH. intros b Hb. apply H. right. exact Hb.
Qed.
Lemma ops_nil l c : map (fun o => (op_op o, op_loc o, op_exp o)) (ops_prepend_expected l [] c) =
  map (fun o => (op_op o, op_loc o, op_exp o)) l.
Proof.
  unfold ops_prepend_expected. rewrite map_map. apply map_ext. intros [o l0 x k]. simpl. destruct k; reflexivity.
Qed.
Lemma min_map {T A} (f : repair T A -> repair T A) l : (forall a b, key_lt (f a) (f b) = key_lt a b) ->
  forall x, py_min (f x) (map f l) = f (py_min x l).
Proof. intros H. induction l as [|y l IH]; intros x; simpl; auto. rewrite H. destruct (key_lt y x); apply IH. Qed.
Lemma unwrap_nil {T A} (x : res T A) fmt c b :
  unwrap (ResultWrapper (res_prepend [] c x) fmt) b = unwrap (ResultWrapper x fmt) b.
Proof.
  unfold unwrap. destruct x as [o|e|r]; simpl.
  - unfold ok_prepend. destruct (ok_con o); reflexivity.
  - unfold er_prepend. destruct (er_con e); reflexivity.
  - destruct (rc_reps r) as [|a l]; simpl.
    + destruct (rc_con r); reflexivity.
    + rewrite min_map by reflexivity. destruct b; simpl; auto. f_equal.
      set (L := r_ops (py_min a l)). pose proof (ops_nil L c) as H.
      apply (f_equal (map (fun z => let '(o, p, q) := z in ErrorItem p (fmt p) q (Some o)))) in H.
      rewrite !map_map in H. exact H.
Qed.
Theorem C56_prefix :
  forall T V (E : env T V) A (g : gram T V A) teq w l s get1 get2 fmt locof1 locof2 (lay : Prop) n rec mi,
  w <> [] -> (forall a, In a w -> teq a a = true) ->
  (forall d, gall (prefix_node w s lay) (E d)) -> gall (prefix_node w s lay) g ->
  cohere get1 (w ++ s) locof1 -> cohere get2 s locof2 ->
  (lay -> exactpos (w ++ s) locof1 /\ exactpos s locof2 /\
     forall i, i <= List.length s -> loc_col (locof1 (List.length w + i)) = loc_col (locof2 i)) ->
  outrel (fun r1 r2 => forall b,
      unwraprel (w ++ s) (List.length w) 0 locof1 locof2 eq fmt fmt (unwrap r1 b) (unwrap r2 b))
    (parse E (S n) (seqr (GLiteral teq w l) g) (w ++ s) rec mi get1 fmt)
    (parse E n g s rec mi get2 fmt).
Proof.
  intros T V E A g teq w l s get1 get2 fmt locof1 locof2 lay n rec mi Hw Heq HE Hg H1 H2 HL.
  set (k := List.length w).
  assert (Hk : List.length (w ++ s) = k + List.length s) by apply app_length.
  assert (HN : List.length (w ++ s) - k = List.length s) by lia.
  assert (Hsk : skipn k (w ++ s) = s).
  { unfold k. rewrite skipn_app, skipn_all, Nat.sub_diag. reflexivity. }
  assert (Hs : Forall2 eq (skipn k (w ++ s)) (skipn 0 s)).
  { rewrite Hsk. simpl. clear. induction s; constructor; auto. }
  assert (Hcol : lay -> forall i, i <= List.length (w ++ s) - k ->
    loc_col (locof1 (k + i)%nat) = (loc_col (locof2 (0 + i)%nat) + 0)%Z).
  { intros L i Hi. destruct (HL L) as (_ & _ & HL'). simpl. rewrite Z.add_0_r. apply HL'. lia. }
  pose proof (fun L => proj1 (HL L)) as X1. pose proof (fun L => proj1 (proj2 (HL L))) as X2.
  assert (HC : crel k 0 lay get1 get2 locof1 locof2 0 0 (update_loc (init_ctx get1) (w ++ s) (0 + k)) (init_ctx get2)).
  { split; [|split; [apply pos_init|]].
    - rewrite Nat.add_0_r. apply (cs_upd _ _ _ _ _ (pos_system (w ++ s) get1 locof1 lay H1 X1) 0); [apply pos_init|lia].
    - intros _. rewrite upd_mark. reflexivity. }
  assert (HE' : forall d, grel eq (fun d => eq) (w ++ s) s k 0 lay (V d) (V d) eq (E d) (E d)).
  { intros d. apply grel_refl. auto. }
  assert (Hg' := grel_refl w s lay A g Hg : grel eq (fun d => eq) (w ++ s) s k 0 lay A A eq g g).
  destruct n as [|n].
  - unfold parse, seqr. destruct rec; exact I.
  - unfold parse. destruct rec.
    + pose proof (full_param E E eq (fun d => eq) (w ++ s) s k 0 lay get1 get2 locof1 locof2 0 H1 H2 X1 X2
        ltac:(lia) ltac:(lia) Hs Hcol HE' (S n) A A eq g g Hg' 0 _ _ mi (Some mi) ltac:(lia) HC) as K.
      rewrite Nat.add_0_r in K. change (0 + 0) with 0 in K.
      change (full E (S (S n)) (seqr (GLiteral teq w l) g))
        with (seq_full (literal_full teq w l) (full E (S n) g) (fun _ r => r)).
      unfold seq_full, literal_full. rewrite (starts_self T teq w s Heq).
      cbn [obind ok_val ok_pos ok_ctx ok_con ok_exp]. fold k. change (0 + k) with k in K |- *.
      destruct (full E (S n) g (w ++ s) k _ mi (Some mi)) as [x|e|],
        (full E (S n) g s 0 _ mi (Some mi)) as [y|e'|]; cbn [obind outrel] in K |- *; try contradiction; auto.
      change (fun vb : A => Ret vb) with (@Ret A). rewrite res_fmap_id. cbn [obind outrel].
      intros b. rewrite unwrap_nil. apply (unwrap_rel (w ++ s) k 0 lay get1 get2 locof1 locof2 0 eq 0). exact K.
    + pose proof (fast_param E E eq (fun d => eq) (w ++ s) s k 0 lay get1 get2 locof1 locof2 0 H1 H2 X1 X2
        ltac:(lia) ltac:(lia) Hs Hcol HE' (S n) A A eq g g Hg' 0 _ _ ltac:(lia) HC) as K.
      rewrite Nat.add_0_r in K. change (0 + 0) with 0 in K.
      change (fast E (S (S n)) (seqr (GLiteral teq w l) g))
        with (seq_fast (literal_fast teq w l) (fast E (S n) g) (fun _ r => r)).
      unfold seq_fast, literal_fast. rewrite (starts_self T teq w s Heq).
      cbn [obind ok_val ok_pos ok_ctx ok_con ok_exp]. fold k. change (0 + k) with k in K |- *.
      destruct (fast E (S n) g (w ++ s) k _) as [x|e|],
        (fast E (S n) g s 0 _) as [y|e'|]; cbn [obind outrel omap] in K |- *; try contradiction; auto.
      assert (Hx : sres_fmap (fun vb : A => Ret vb) x = Ret x) by (destruct x as [[]|]; reflexivity).
      rewrite Hx. cbn [obind outrel omap].
      intros b. replace (sres_res (sres_prepend [] true x)) with (res_prepend [] true (sres_res x)) by (destruct x; reflexivity).
      rewrite unwrap_nil. apply (unwrap_rel (w ++ s) k 0 lay get1 get2 locof1 locof2 0 eq 0). destruct x, y; exact K.
Qed.
Print Assumptions C56_prefix.

(** Where the locations go, for text: the position moves by the length of [w], the
    line by the number of newlines in [w], and the column, up to the first newline
    of [s], by the length of the last line of [w]. *)
Lemma true_loc_shift w s i :
  loc_pos (true_loc (w ++ s) (List.length w + i)) = (Z.of_nat (List.length w) + Z.of_nat i)%Z /\
  loc_line (true_loc (w ++ s) (List.length w + i)) =
    (Z.of_nat (true_line w (List.length w)) + loc_line (true_loc s i))%Z /\
  loc_col (true_loc (w ++ s) (List.length w + i)) =
    (if Nat.eqb (true_line s i) 0 then Z.of_nat (true_col w (List.length w)) + loc_col (true_loc s i)
     else loc_col (true_loc s i))%Z.
Proof.
  assert (F : firstn (List.length w + i) (w ++ s) = w ++ firstn i s).
  { rewrite firstn_app, firstn_all2 by lia. f_equal. f_equal. lia. }
  assert (G : firstn (List.length w) w = w) by apply firstn_all.
  unfold true_loc, true_line, true_col. simpl. rewrite F, G. split; [lia|]. split.
  - rewrite filter_app, app_length. lia.
  - rewrite rev_app_distr, line_run_app, filter_rev_len. destruct (Nat.eqb_spec (List.length (filter newline (firstn i s))) 0) as [H|H].
    + rewrite rev_length. rewrite firstn_length.
      assert (K : line_run (rev (firstn i s)) = List.length (firstn i s)).
      { clear - H. rewrite <- (filter_rev_len newline), <- (rev_length (firstn i s)) in *.
        induction (rev (firstn i s)) as [|x l IH]; simpl in *; auto. destruct (newline x); simpl in *; [lia|].
        rewrite IH; auto. }
      rewrite K, firstn_length. lia.
    + reflexivity.
Qed.

Theorem C56_scannerless :
  forall V (E : env char V) A (g : gram char V A) (w : list char) l (s : list char) n rec,
  w <> [] ->
  (forall d, gall (prefix_node w s (exists w', w = w' ++ [10%N])) (E d)) ->
  gall (prefix_node w s (exists w', w = w' ++ [10%N])) g ->
  outrel (fun r1 r2 => forall b,
      match unwrap r1 b, unwrap r2 b with
      | Returns x, Returns y => x = y
      | Raises es, Raises es' => Forall2 (fun e e' => exists i, i <= List.length s /\
          ei_loc e = true_loc (w ++ s) (List.length w + i) /\ ei_loc e' = true_loc s i /\
          ei_expected e = ei_expected e' /\ ei_op e = ei_op e') es es'
      | _, _ => False
      end)
    (scannerless_parse E (S n) (seqr (GLiteral N.eqb w l) g) (w ++ s) rec)
    (scannerless_parse E n g s rec).
Proof.
  intros V E A g w l s n rec Hw HE Hg.
  pose proof (C56_prefix char V E A g N.eqb w l s scannerless_get_loc scannerless_get_loc linecol_fmt
    (true_loc (w ++ s)) (true_loc s) _ n rec 5 Hw (fun a _ => N.eqb_refl a) HE Hg
    (scannerless_cohere _) (scannerless_cohere _)) as K.
  assert (L : (exists w', w = w' ++ [10%N]) -> exactpos (w ++ s) (true_loc (w ++ s)) /\ exactpos s (true_loc s) /\
     forall i, i <= List.length s -> loc_col (true_loc (w ++ s) (List.length w + i)) = loc_col (true_loc s i)).
  { intros (w' & ->). split; [apply scannerless_exact|]. split; [apply scannerless_exact|]. intros i Hi.
    eapply eq_trans; [exact (proj2 (proj2 (true_loc_shift (w' ++ [10%N]) s i)))|].
    destruct (Nat.eqb _ _); auto. unfold true_col at 1. rewrite firstn_all, rev_app_distr. simpl. reflexivity. }
  specialize (K L). unfold scannerless_parse.
  eapply out_weaken; [|exact K]. intros r1 r2 H b. specialize (H b).
  destruct (unwrap r1 b), (unwrap r2 b); simpl in *; auto.
  eapply F2_impl; [|exact H]. intros e e' ((i & Hi & H1 & H2) & _ & _ & H3 & H4). exists i.
  assert (Hl : @List.length char (w ++ s) = List.length w + List.length s) by apply app_length.
  split; [lia|]. repeat split; auto.
Qed.
Print Assumptions C56_scannerless.

(** ** Concrete cases *)
(** numbers, one of which may be missing *)
Definition pt_list : gram token ex_V (list (list char)) :=
  seql (GBind (token_ins "num" (ex_str "0")) (fun t =>
    GFmap (GMany (GFmap (token_p "num") (fun t => Ret (tk_value t)))) (fun l => Ret (tk_value t :: l)))) GEof.
Lemma pt_list_rel s s' : grel (V1 := ex_V) (V2 := ex_V) same_token (fun d => eq) s s' 0 0 False
  (list (list char)) (list (list char)) eq pt_list pt_list.
Proof.
  destruct (C55_token_parsers ex_V (fun d => eq) s s' False "num" (ex_str "0") (Token "(" [] (Loc 0 0 0) (Loc 0 0 0)) None (fun _ => "("%string))
    as (Hp & Hi & _).
  unfold pt_list, seql. eapply gr_seq with (R := eq) (Q := eq); [|constructor|intros; congruence].
  eapply gr_bind; [exact Hi|]. intros t t' [H1 H2].
  eapply gr_fmap; [eapply gr_many, gr_fmap with (Q := eq); [exact Hp|]|].
  - intros u u' [_ K]. exact K.
  - intros l l' Hl. simpl. apply F2_eq in Hl. congruence.
Qed.
(** for every text: *)
Theorem C55_case_all : forall src src' n0 n0' s s' n rec r r' b,
  split_tokens n0 src lx_spec = Ret (LexOk s) -> split_tokens n0' src' lx_spec = Ret (LexOk s') ->
  Forall2 same_token s s' ->
  lexer_parse (fun _ => GUndef) n pt_list s rec = Ret r -> lexer_parse (fun _ => GUndef) n pt_list s' rec = Ret r' ->
  unwraprel s 0 0 (loc_from_stream s) (loc_from_stream s') eq linecol_fmt linecol_fmt (unwrap r b) (unwrap r' b).
Proof.
  intros src src' n0 n0' s s' n rec r r' b H1 H2 Hs Hr Hr'.
  pose proof (C55_token_locations ex_V (fun _ => GUndef) (fun d => eq) _ _ eq pt_list pt_list n s s' rec
    (fun d => gr_undef _ _ _ _ _ _ _ _ _ _) (pt_list_rel s s') Hs) as K.
  rewrite Hr, Hr' in K. exact (K b).
Qed.
(** and the texts "1 2" and newline, "1", newline, "2" are such *)
Theorem C55_case : exists s s' r r' v,
  split_tokens 9 (ex_str "1 2") lx_spec = Ret (LexOk s) /\
  split_tokens 9 (ex_str (lay_nltxt ++ "1" ++ lay_nltxt ++ "2")) lx_spec = Ret (LexOk s') /\
  s <> s' /\ Forall2 same_token s s' /\
  lexer_parse (fun _ => GUndef) 9 pt_list s true = Ret r /\ lexer_parse (fun _ => GUndef) 9 pt_list s' true = Ret r' /\
  unwrap r true = Returns v /\ unwrap r' true = Returns v /\ List.length v = 2.
Proof.
  do 5 eexists. split; [vm_compute; reflexivity|]. split; [vm_compute; reflexivity|].
  split; [discriminate|]. split; [repeat constructor|]. repeat (split; [vm_compute; reflexivity|]). vm_compute. reflexivity.
Qed.

(** expressions after a heading of any text *)
Theorem C56_case_all : forall (w s : list char) n rec r r' b, w <> [] ->
  scannerless_parse ex_E (S n) (seqr (GLiteral N.eqb w "heading") ex_top) (w ++ s) rec = Ret r ->
  scannerless_parse ex_E n ex_top s rec = Ret r' ->
  match unwrap r b, unwrap r' b with
  | Returns x, Returns y => x = y
  | Raises es, Raises es' => Forall2 (fun e e' => exists i, i <= List.length s /\
      ei_loc e = true_loc (w ++ s) (List.length w + i) /\ ei_loc e' = true_loc s i /\
      ei_expected e = ei_expected e' /\ ei_op e = ei_op e') es es'
  | _, _ => False
  end.
Proof.
  intros w s n rec r r' b Hw H H'.
  pose proof (C56_scannerless ex_V ex_E Z ex_top w "heading" s n rec Hw) as K.
  rewrite H, H' in K. apply K; [intros d|]; solve_gall.
Qed.
(** the layout grammar, after a first line *)
Theorem C56_case_layout : forall (w s : list char) n rec r r' b,
  scannerless_parse lay_E (S n) (seqr (GLiteral N.eqb (w ++ [10%N]) "heading") lay_top) ((w ++ [10%N]) ++ s) rec = Ret r ->
  scannerless_parse lay_E n lay_top s rec = Ret r' ->
  match unwrap r b, unwrap r' b with
  | Returns x, Returns y => x = y
  | Raises es, Raises es' => List.length es = List.length es'
  | _, _ => False
  end.
Proof.
  intros w s n rec r r' b H H'.
  assert (Hw : w ++ [10%N] <> []) by (destruct w; discriminate).
  pose proof (C56_scannerless ex_V lay_E _ lay_top (w ++ [10%N]) "heading" s n rec Hw) as K.
  rewrite H, H' in K. assert (L : exists w', w ++ [10%N] = w' ++ [10%N]) by eauto.
  assert (K' := K ltac:(intros d; solve_gall) ltac:(solve_gall) b).
  destruct (unwrap r b), (unwrap r' b); auto. apply F2_len in K'. auto.
Qed.
(** after a heading that does not end its line, the layout grammar parses differently:
    [many (aligned digit-line)] outside any block needs column 0 *)
Theorem C56_layout_differs : exists r r',
  scannerless_parse lay_E 60 (seqr (GLiteral N.eqb (ex_str "x") "x") (GAligned ex_digit)) (ex_str "x1") false = Ret r /\
  scannerless_parse lay_E 59 (GAligned ex_digit) (ex_str "1") false = Ret r' /\
  (exists es, unwrap r false = Raises es) /\ unwrap r' false = Returns 1%Z.
Proof.
  do 2 eexists. split; [vm_compute; reflexivity|]. split; [vm_compute; reflexivity|].
  split; [eexists; vm_compute; reflexivity|]. vm_compute. reflexivity.
Qed.
Theorem C56_case : exists r r' e e',
  scannerless_parse ex_E 151 (seqr (GLiteral N.eqb (ex_str "ab") "heading") ex_top) (ex_str "ab1+)") true = Ret r /\
  scannerless_parse ex_E 150 ex_top (ex_str "1+)") true = Ret r' /\
  unwrap r false = Raises e /\ unwrap r' false = Raises e' /\
  map (fun e => loc_pos (ei_loc e)) e = map (fun e => (2 + loc_pos (ei_loc e))%Z) e' /\ List.length e = 2.
Proof.
  do 4 eexists. repeat (split; [vm_compute; reflexivity|]). vm_compute. reflexivity.
Qed.
