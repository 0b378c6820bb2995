(** Property C79: inputs that end too early (CloseSpec.v). *)
From Verif Require Import Fuel ApiSpec ApiProofs Locations PegSpec PropsPeg DiagSpec DiagProofs PropsTerm PropsTotal PropsRec PropsRecovery
  FirstSpec First PropsFirst LL LangInv PropsLL Examples Mend PropsMend Miss PropsMiss PropsBudget Close.
From Coq Require Import Lia.
Import ListNotations.

(** what is inserted, in the order of the reports *)
Definition end_edits {T} (s : list T) (iw : list (string * list (T + string))) : list (edit T) :=
  map (@EKeep T) s ++ map (fun p => EIns (fst p) (snd p)) iw.

Lemma end_edits_of {T} (es : list (edit T)) : forall i, edits_ops i es <> [] ->
  (forall o p, In (o, p) (edits_ops i es) -> p = i + List.length (edits_in es)) ->
  (forall n p, In (Skip n, p) (edits_ops i es) -> 0 < n) ->
  exists iw, es = end_edits (edits_in es) iw.
Proof.
  assert (N : forall (es0 : list (edit T)) i e, e = i + List.length (edits_in es0) ->
    (forall o p, In (o, p) (edits_ops i es0) -> p = e) -> (forall n p, In (Skip n, p) (edits_ops i es0) -> 0 < n) ->
    exists iw, es0 = end_edits (edits_in es0) iw).
  { intros es0. induction es0 as [|[t|ts|l w] es1 IH]; intros i e He Hp Hs; cbn in He, Hp, Hs.
    - exists []. reflexivity.
    - destruct (IH (i + 1) e) as [iw Q]; auto.
      { unfold edits_in. lia. }
      exists iw. cbn. unfold end_edits in *. unfold edits_in in Q. cbn. f_equal. exact Q.
    - exfalso. specialize (Hp _ _ (or_introl eq_refl)). specialize (Hs _ _ (or_introl eq_refl)). rewrite app_length in He. lia.
    - specialize (Hp _ _ (or_introl eq_refl)) as Hp1.
      destruct (IH i e) as [iw Q]; eauto.
      assert (Z0 : edits_in es1 = []).
      { unfold edits_in. destruct (flat_map edit_in es1); auto. cbn in He. lia. }
      exists ((l, w) :: iw). rewrite Z0 in Q. change (edits_in (EIns l w :: es1)) with (edits_in es1). rewrite Z0. unfold end_edits in *. cbn in *. f_equal. exact Q. }
  intros i _ Hp Hs. eapply N; eauto.
Qed.
Lemma end_ops {T} iw : forall (s : list T) i, edits_ops i (end_edits s iw) = map (fun p => (Insert (fst p), i + List.length s)) iw.
Proof.
  unfold end_edits. induction s as [|t s IH]; intros i; cbn.
  - induction iw as [|[l w] iw IH]; cbn; [reflexivity|]. rewrite IH. f_equal. f_equal. lia.
  - rewrite IH. apply map_ext. intros p. f_equal. lia.
Qed.
Lemma end_out {T} iw (s : list T) : edits_out (end_edits s iw) = map inl s ++ List.concat (map snd iw).
Proof.
  unfold end_edits, edits_out. rewrite flat_map_app. fold (edits_out (map (@EKeep T) s)). rewrite keep_out. f_equal.
  induction iw as [|[l w] iw IH]; cbn; [reflexivity|]. f_equal. exact IH.
Qed.

Section Top.
Context {T : Type} {V : nat -> Type} (E : env T V) {A : Type} (g : gram T V A).
Variables (s : list T) (get : loc -> list T -> nat -> loc) (locof : nat -> loc).
Hypotheses (HE : wf_env E) (Hg : wf g) (Hco : cohere get s locof) (Hl : lay_ok E g s locof).
Hypotheses (Hc : everywhere E (completable_node E) g) (HL : LL1 E g).
Hypotheses (Hq : everywhere E (quiet_node E) g) (Hgd : guarded E g).
Hypotheses (Hte : everywhere E (to_end_node E) g).

Lemma mend_closed xs v mi : xs <> [] -> Forall (closing E g) xs -> sentence E g (s ++ xs) v -> enough mi (List.length xs) ->
  exists y, mend E s locof A (seql g GEof) 0 0 mi (Some mi) y /\ y_cost y = List.length xs.
Proof using All.
  intros Hx HC Hv Hen. destruct HL as (F & HL1 & HF). destruct (lay_gok _ _ _ _ _ HE Hg Hl) as [G1 G2].
  destruct (close E s get locof HE Hco G2 F HF mi A g _ v Hv s xs eq_refl Hx 0%Z 0 (fun o => o = None) (Some mi) mi) as (y & My & C1 & C2 & C3 & C4); auto.
  - intros B q Ho. split; [split; [eapply occurs_wf; eauto|split; [apply Hc|apply Hq]; auto]|].
    split; [split; [exact (proj1 (guarded_everywhere E A g) Hgd B q Ho)|exact (Close.occurs_gok E s locof G2 B q A g Ho G1)]|].
    apply Hte; auto.
  - lia.
  - cbn [Nat.add] in C3. eexists. split; [eapply md_seq_1; [exact My|rewrite C3; apply pg_eof]|]. cbn. auto.
Qed.
End Top.

(** ** When a beginning of a text is repaired, things are inserted at the end, and
    nothing else is changed *)
Theorem C79_end_repaired :
  forall T V (E : env T V) n A (g : gram T V A) s mi get fmt locof r errs w,
  wf_env E -> wf g -> cohere get s locof -> lay_ok E g s locof -> distinct_locs s locof ->
  everywhere E (completable_node E) g -> LL1 E g ->
  everywhere E next_token_node g -> everywhere E (fun B q => ~ is_layout B q) g -> single_withs E g ->
  viable E g s ->
  parse E n (seql g GEof) s true mi get fmt = Ret r -> unwrap r false = Raises errs -> unwrap r true = Returns w ->
  exists inserted, inserted <> [] /\
    Forall2 (fun e p => ei_loc e = locof (List.length s) /\ ei_op e = Some (Insert (fst p)) /\ inserts E g (fst p) (snd p)) errs inserted /\
    lang E A g (map inl s ++ List.concat (map snd inserted)) w.
Proof.
  intros T V E n A g s mi get fmt locof r errs w HE Hg Hco Hl Hd Hc HL H1 Hnl Hsw Hvb H U1 U.
  destruct Hvb as (xs & v & Hv).
  destruct (C49_exact_position_recovering _ _ _ _ _ _ _ _ _ _ _ _ _ HE Hg Hco Hl Hc (ex_intro _ _ (ex_intro _ _ Hv)) HL H1 Hnl Hsw H U1)
    as (p & e & tl & Qe & L & P1 & P2 & P3 & P4).
  assert (Qp : p = List.length s).
  { destruct (Nat.eq_dec p (List.length s)) as [|Ne]; auto. exfalso. apply P3; [lia|].
    apply (vb_prefix E A g _ (skipn (p + 1) s)). rewrite firstn_skipn. exists xs, v. exact Hv. }
  subst p.
  pose proof (parse_eof_ends _ _ _ _ _ _ _ _ _ _ H) as Hend.
  destruct (unwrap_repair _ _ _ _ _ _ _ _ _ _ _ H U U1) as (rc & rep & Hr & Hin & Qv & Q).
  rewrite Hr in Hend. simpl in Hend. specialize (Hend _ Hin).
  destruct (repair_script_loc _ _ _ _ _ _ _ _ _ _ _ _ HE (wf_eof _ _ Hg) Hco (lay_eof _ _ _ _ _ Hl) H Hr Hin)
    as (es & E1 & _ & E2 & E3 & E4 & E5 & _).
  rewrite <- Q in E2. rewrite Hend in E1, E5. unfold slice in E1. rewrite Nat.sub_0_r in E1. cbn [skipn] in E1. rewrite firstn_all in E1.
  assert (AtEnd : forall o q, In (o, q) (edits_ops 0 es) -> q = List.length s /\ forall n, o = Skip n -> 0 < n).
  { assert (First : exists o0 p0 rest, edits_ops 0 es = (o0, p0) :: rest /\ locof p0 = locof (List.length s)).
    { rewrite Qe in E2. inversion E2 as [|? [o0 p0] ? ? (R1 & R2 & _) ? Q1 Q2]. subst. exists o0, p0, l'. split; auto. cbn in R2. congruence. }
    destruct First as (o0 & p0 & rest & Qes & Lp). rewrite Qes in E5 |- *.
    assert (Bd : forall l i j, ops_sorted i j l -> forall o q, In (o, q) l -> i <= q <= j /\ forall n, o = Skip n -> 0 < n).
    { clear. induction l as [|[[k|z] p] l IH]; intros i j Hs o q Hin; [destruct Hin| |].
      - cbn in Hs. destruct Hs as (S1 & S2 & S3). pose proof (ops_sorted_le _ _ _ S3). destruct Hin as [Hin|Hin].
        + injection Hin as <- <-. split; [lia|]. intros n' Hn'. injection Hn' as <-. lia.
        + destruct (IH _ _ S3 o q Hin) as [I1 I2]. split; [lia|exact I2].
      - cbn in Hs. destruct Hs as (S1 & S3). pose proof (ops_sorted_le _ _ _ S3). destruct Hin as [Hin|Hin].
        + injection Hin as <- <-. split; [lia|]. intros n' Hn'. discriminate.
        + destruct (IH _ _ S3 o q Hin) as [I1 I2]. split; [lia|exact I2]. }
    pose proof (Bd _ _ _ E5) as Bd'.
    assert (Qp0 : p0 = List.length s).
    { apply Hd; [apply (Bd' o0 p0); left; reflexivity|lia|exact Lp]. }
    subst p0. intros o q Hi. split; [|apply (Bd' o q Hi)].
    destruct Hi as [Hi|Hi]; [congruence|].
    assert (E5' : exists i, List.length s <= i /\ ops_sorted i (List.length s) rest).
    { destruct o0; cbn in E5; [destruct E5 as (_ & _ & E5)|destruct E5 as (_ & E5)]; eexists; (split; [|exact E5]); lia. }
    destruct E5' as (i & Hi' & E5'). pose proof (Bd _ _ _ E5' _ _ Hi) as [I1 _]. lia. }
  destruct (end_edits_of es 0) as (iw & Qes).
  { intros Z0. rewrite Z0, Qe in E2. inversion E2. }
  { intros o q Hi. rewrite E1. apply (AtEnd o q Hi). }
  { intros k q Hi. apply (proj2 (AtEnd _ _ Hi) k eq_refl). }
  rewrite E1 in Qes. subst es. rewrite end_ops in E2. rewrite end_out in E3.
  exists iw. split; [intros ->; rewrite Qe in E2; inversion E2|]. split.
  - assert (I : forall p0, In p0 iw -> inserts E g (fst p0) (snd p0)).
    { intros p0 Hp0. apply inserts_eof. apply E4. unfold end_edits. apply in_or_app. right.
      apply in_map_iff. exists p0. auto. }
    clear - E2 I. revert errs E2. induction iw as [|p0 iw IH]; intros errs E2; cbn in E2; inversion E2 as [|a b la lb (R1 & R2 & _) F Q1 Q2]; subst; constructor.
    + cbn in R1, R2. split; auto. split; auto. apply I. left. reflexivity.
    + apply IH; auto. intros p1 Hp1. apply I. right. exact Hp1.
  - apply (lang_inv E) in E3. cbn in E3. destruct E3 as (w1 & w2 & u1 & u2 & W & E3v & E3 & E3'). apply (lang_inv E) in E3'. cbn in E3'. subst w2. rewrite app_nil_r in W. subst w1.
    cbn in E3v. rewrite Qv, E3v. exact E3.
Qed.
Print Assumptions C79_end_repaired.

(** ** At the end of an unfinished input, tokens are inserted, at most as many as
    are missing, and nothing else is changed *)
Theorem C79_missing_end :
  forall T V (E : env T V) n A (g : gram T V A) s xs v mi get fmt locof r,
  wf_env E -> wf g -> cohere get s locof -> lay_ok E g s locof -> distinct_locs s locof ->
  everywhere E (completable_node E) g -> LL1 E g -> everywhere E (quiet_node E) g -> guarded E g ->
  everywhere E (to_end_node E) g -> everywhere E next_token_node g -> everywhere E (fun B q => ~ is_layout B q) g ->
  single_withs E g ->
  xs <> [] -> Forall (closing E g) xs -> sentence E g (s ++ xs) v -> enough mi (List.length xs) ->
  parse E n (seql g GEof) s true mi get fmt = Ret r ->
  exists errs w inserted, unwrap r false = Raises errs /\ unwrap r true = Returns w /\
    1 <= List.length errs <= List.length xs /\
    Forall2 (fun e p => ei_loc e = locof (List.length s) /\ ei_op e = Some (Insert (fst p)) /\ inserts E g (fst p) (snd p)) errs inserted /\
    lang E A g (map inl s ++ List.concat (map snd inserted)) w.
Proof.
  intros T V E n A g s xs v mi get fmt locof r HE Hg Hco Hl Hd Hc HL Hq Hgd Hte H1 Hnl Hsw Hx HC Hv Hen H.
  destruct (mend_closed E g s get locof HE Hg Hco Hl Hc HL Hq Hgd Hte xs v mi Hx HC Hv Hen) as (y & My & Cy).
  destruct (C74_best_mend _ _ _ _ _ _ _ _ _ _ _ _ HE (wf_eof _ _ Hg) Hco (lay_eof _ _ _ _ _ Hl) H) as [K1 K2]. cbv zeta in K1, K2.
  destruct (unwrap r false) as [u|errs] eqn:U1; [destruct (K1 u eq_refl y My)|].
  destruct (K2 errs eq_refl) as [(e & _ & _ & _ & N)|(y' & M & U & R & B)]; [destruct (N y My)|].
  assert (C : y_cost y' <= List.length xs).
  { destruct (Nat.leb_spec (y_cost y') (List.length xs)); auto. destruct (B y My). left. lia. }
  destruct (mend_cost _ _ _ _ _ _ _ _ _ _ M) as (Cne & Cpos & Ccost).
  assert (Len : List.length errs = List.length (y_ops y')) by (unfold y_reported in R; clear - R; induction R; cbn; auto).
  assert (Few : List.length (y_ops y') <= ops_cost (map fst (y_ops y'))).
  { clear - Cpos. induction Cpos as [|o l H _ IH]; auto. unfold ops_cost in *. cbn [map List.length list_sum fold_right] in *. change (fold_right Nat.add 0 ?l) with (list_sum l). lia. }
  destruct (C79_end_repaired _ _ _ _ _ _ _ _ _ _ _ _ _ _ HE Hg Hco Hl Hd Hc HL H1 Hnl Hsw (ex_intro _ _ (ex_intro _ _ Hv)) H U1 U) as (iw & Ne & F & W).
  exists errs, (y_val y'), iw. split; auto. split; auto. split; [|auto].
  split; [|lia]. destruct errs as [|e0 errs]; cbn; [|lia]. inversion F. congruence.
Qed.
Print Assumptions C79_missing_end.

(** a repair inserts one thing at a time *)
Lemma inserts_one T V (E : env T V) A (g : gram T V A) l w : everywhere E (to_end_node E) g -> inserts E g l w -> exists t, w = [t].
Proof.
  intros Ht (B & q & Ho & Hi). specialize (Ht B q Ho).
  destruct q; cbn in Ht, Hi; try contradiction.
  - destruct Hi as [_ ->]. eauto.
  - destruct Hi as [_ ->]. destruct x as [|t [|? ?]]; try discriminate. cbn. eauto.
  - destruct Hi as [_ ->]. eauto.
  - destruct Hi as (? & ? & ? & _ & _ & Q). eauto.
Qed.

(** ... and if nothing else completes the input with that many insertions, they
    are the missing tokens, and the result is the one of the completed input *)
Theorem C79_completed :
  forall T V (E : env T V) n A (g : gram T V A) s xs v mi get fmt locof r,
  wf_env E -> wf g -> cohere get s locof -> lay_ok E g s locof -> distinct_locs s locof ->
  everywhere E (completable_node E) g -> LL1 E g -> everywhere E (quiet_node E) g -> guarded E g ->
  everywhere E (to_end_node E) g -> everywhere E next_token_node g -> everywhere E (fun B q => ~ is_layout B q) g ->
  single_withs E g ->
  xs <> [] -> Forall (closing E g) xs -> sentence E g (s ++ xs) v -> enough mi (List.length xs) ->
  (forall ins u, Forall (fun w => exists l, inserts E g l w) ins -> List.length ins <= List.length xs ->
     lang E A g (map inl s ++ List.concat ins) u -> List.concat ins = map inl xs) ->
  parse E n (seql g GEof) s true mi get fmt = Ret r ->
  exists errs, unwrap r false = Raises errs /\ unwrap r true = Returns v /\
    Forall2 (fun e x => ei_loc e = locof (List.length s) /\ exists l, ei_op e = Some (Insert l) /\ inserts E g l [inl x]) errs xs.
Proof.
  intros T V E n A g s xs v mi get fmt locof r HE Hg Hco Hl Hd Hc HL Hq Hgd Hte H1 Hnl Hsw Hx HC Hv Hen Hu H.
  destruct (C79_missing_end _ _ _ _ _ _ _ _ _ _ _ _ _ _ HE Hg Hco Hl Hd Hc HL Hq Hgd Hte H1 Hnl Hsw Hx HC Hv Hen H)
    as (errs & w & iw & U1 & U2 & Le & F & W).
  assert (Len : List.length errs = List.length iw) by (clear - F; induction F; cbn; auto).
  assert (Q : List.concat (map snd iw) = map inl xs).
  { apply (Hu _ w); [|rewrite map_length; lia|exact W]. clear - F. induction F as [|e p es ps (_ & _ & I) _ IH]; cbn; constructor; eauto. }
  exists errs. split; auto. split.
  - rewrite U2. f_equal. apply (C47_unambiguous T V E A g (s ++ xs) w v HE Hg Hc HL Hq Hgd); auto.
    unfold sentence. rewrite map_app, <- Q. exact W.
  - clear - F Q Hte. revert xs Q. induction F as [|e p es ps (L & O & I) _ IH]; intros xs Q; cbn in Q.
    + destruct xs; [constructor|discriminate].
    + destruct (inserts_one _ _ _ _ _ _ _ Hte I) as [t Qt]. rewrite Qt in Q, I. destruct xs as [|x xs]; [discriminate|].
      injection Q as Q1 Q. subst t. constructor; eauto.
Qed.
Print Assumptions C79_completed.

(** ** If more insertions are needed than allowed, nothing is repaired *)
Theorem C79_too_many :
  forall T V (E : env T V) n A (g : gram T V A) s mi get fmt locof r,
  wf_env E -> wf g -> cohere get s locof -> lay_ok E g s locof -> distinct_locs s locof ->
  everywhere E (completable_node E) g -> LL1 E g ->
  everywhere E next_token_node g -> everywhere E (fun B q => ~ is_layout B q) g -> single_withs E g ->
  viable E g s -> (0 <= mi)%Z ->
  (forall ins u, Forall (fun w => exists l, inserts E g l w) ins -> lang E A g (map inl s ++ List.concat ins) u ->
     (mi < Z.of_nat (List.length ins))%Z) ->
  parse E n (seql g GEof) s true mi get fmt = Ret r ->
  exists e, unwrap r false = Raises [e] /\ unwrap r true = Raises [e] /\ ei_loc e = locof (List.length s) /\ ei_op e = None.
Proof.
  intros T V E n A g s mi get fmt locof r HE Hg Hco Hl Hd Hc HL H1 Hnl Hsw Hvb Hm Hu H.
  destruct (C74_best_mend _ _ _ _ _ _ _ _ _ _ _ _ HE (wf_eof _ _ Hg) Hco (lay_eof _ _ _ _ _ Hl) H) as [K1 K2]. cbv zeta in K1, K2.
  destruct (unwrap r false) as [u|errs] eqn:U1.
  - exfalso. assert (S1 : sentence E g s u).
    { apply (C47_ll1_accepts_the_language _ _ _ _ _ _ _ _ _ _ _ _ _ HE Hg Hco Hl Hc HL H). exact U1. }
    specialize (Hu [] u (Forall_nil _)). rewrite app_nil_r in Hu. specialize (Hu S1). cbn in Hu. lia.
  - destruct (K2 errs eq_refl) as [(e & -> & O & U2 & _)|(y' & M & U & R & B)].
    + exists e. split; auto. split; auto. split; auto. destruct Hvb as (xs & v & Hv).
      destruct (C49_exact_position_recovering _ _ _ _ _ _ _ _ _ _ _ _ _ HE Hg Hco Hl Hc (ex_intro _ _ (ex_intro _ _ Hv)) HL H1 Hnl Hsw H U1)
        as (p & e' & tl & Qe & L & P1 & P2 & P3 & P4). injection Qe as <- _. rewrite L. f_equal.
      destruct (Nat.eq_dec p (List.length s)) as [|Ne]; auto. exfalso. apply P3; [lia|].
      apply (vb_prefix E A g _ (skipn (p + 1) s)). rewrite firstn_skipn. exists xs, v. exact Hv.
    + exfalso.
      destruct (C79_end_repaired _ _ _ _ _ _ _ _ _ _ _ _ _ _ HE Hg Hco Hl Hd Hc HL H1 Hnl Hsw Hvb H U1 U) as (iw & Ne & F & W).
      pose proof (C08_insertions_bounded _ _ _ _ _ _ _ _ _ _ _ _ _ HE (wf_eof _ _ Hg) Hco (lay_eof _ _ _ _ _ Hl) Hd Hm H U1 (locof (List.length s))) as K.
      assert (Q : insertions_at (locof (List.length s)) errs = List.length iw).
      { clear - F. unfold insertions_at. induction F as [|e p es ps (L & O & _) _ IH]; cbn; auto. rewrite O, L, (proj2 (loc_eqb_eq _ _) eq_refl). cbn. auto. }
      rewrite Q in K.
      assert (K3 : (mi < Z.of_nat (List.length (map snd iw)))%Z).
      { apply (Hu _ (y_val y')); auto. clear - F. induction F as [|e p es ps (_ & _ & I) _ IH]; cbn; constructor; eauto. }
      rewrite map_length in K3. lia.
Qed.
Print Assumptions C79_too_many.
