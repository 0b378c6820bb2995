(** Property C77: a part is missing for which recover_with stands in (GapSpec.v). *)
From Verif Require Import Fuel ApiSpec ApiProofs Locations PegSpec PropsPeg DiagSpec DiagProofs PropsTerm PropsTotal PropsRec PropsRecovery
  FirstSpec First PropsFirst LL LangInv PropsLL PropsFill Examples Mend PropsMend Miss PropsMiss.
From Verif Require Gap.
From Verif Require Export GapSpec.
Import ListNotations.

Lemma gap_lang T V (E : env T V) l A (g : gram T V A) w1 w2 v : gap E l A g w1 w2 v ->
  lang E A g (map inl w1 ++ [inr l] ++ map inl w2) v.
Proof.
  induction 1; rewrite ?map_app in *; cbn [map app] in *.
  - apply la_with_ins.
  - subst l. eapply la_withfn_ins. apply (H1 [] 0).
  - econstructor; eauto.
  - apply la_alt_l. auto.
  - apply la_alt_r. auto.
  - pose proof (la_bind E _ _ p f _ _ v v' IHgap H1) as K. rewrite <- app_assoc in K. exact K.
  - rewrite <- app_assoc. econstructor; eauto.
  - pose proof (la_seq E _ _ _ p q merge _ _ v v' IHgap H0) as K. rewrite <- app_assoc in K. exact K.
  - rewrite <- app_assoc. econstructor; eauto.
  - apply la_maybe_some. auto.
  - pose proof (la_many_cons E _ p _ _ v vs IHgap H1) as K. rewrite <- app_assoc in K. exact K.
  - rewrite <- app_assoc. apply la_many_cons; auto.
  - apply la_label. auto.
  - apply la_recover. auto.
  - apply la_with. auto.
  - apply la_withfn. auto.
  - apply la_delay. auto.
Qed.

(** ** It costs exactly one error, reported where the part is missing *)
Theorem C77_forgotten_value :
  forall T V (E : env T V) n A (g : gram T V A) l s1 s2 v mi get fmt locof r,
  wf_env E -> wf g -> cohere get (s1 ++ s2) locof -> lay_ok E g (s1 ++ s2) locof ->
  everywhere E (completable_node E) g -> LL1 E g -> everywhere E (quiet_node E) g -> guarded E g ->
  everywhere E one_token_node g -> everywhere E (fun B q => ~ is_layout B q) g -> everywhere E eof_free_node g ->
  single_withs E g ->
  gap E l A g s1 s2 v -> noticed E g s1 s2 -> (0 < mi)%Z ->
  parse E n (seql g GEof) (s1 ++ s2) true mi get fmt = Ret r ->
  exists e w, unwrap r false = Raises [e] /\ unwrap r true = Returns w /\
    ei_loc e = locof (List.length s1) /\ (ei_op e = Some (Skip 1) \/ exists l', ei_op e = Some (Insert l')).
Proof.
  intros T V E n A g l s1 s2 v mi get fmt locof r HE Hg Hco Hl Hc HL Hq Hgd H1 Hnl Hef Hsw HP Hn Hm H.
  destruct HL as (F & HL1 & HF). destruct (lay_gok _ _ _ _ _ HE Hg Hl) as [G1 G2].
  destruct (Gap.gap_mend E (s1 ++ s2) get locof HE Hco G2 F HF l s2 mi Hm A g s1 s2 v HP 0%Z 0 (fun o => o = None) [] (Some mi)) as (y & My & Gy); eauto.
  { apply (fits_g E g _ get locof); eauto. exists F. auto. }
  { lia. }
  { symmetry. apply app_nil_r. }
  pose proof Gy as (G3 & G4 & G5 & G6). cbn [Nat.add] in G5. rewrite <- app_length in G5.
  assert (M : mend E (s1 ++ s2) locof A (seql g GEof) 0 0 mi (Some mi) (y_then_read mi (fun a _ => a) y tt (List.length (s1 ++ s2)))).
  { eapply md_seq_1; [exact My|rewrite G5; apply pg_eof]. }
  destruct (C74_one_error _ _ _ _ _ _ _ _ _ _ _ _ _ HE (wf_eof _ _ Hg) Hco (lay_eof _ _ _ _ _ Hl) H M G3) as (e & w & U1 & U2 & O).
  exists e, w. split; auto. split; auto. split; auto.
  destruct (Gap.gap_viable E l A g s1 s2 v HP Hc) as (w' & u & Hw).
  destruct (first_at _ _ _ _ _ _ _ _ _ _ _ _ _ _ _ _ HE Hg Hco Hl Hc (ex_intro _ F (conj HL1 HF)) H1 Hnl Hsw Hw Hn H U1) as (e' & tl & Q & L).
  injection Q as <- _. exact L.
Qed.
Print Assumptions C77_forgotten_value.

(** ... and the value given to recover_with takes its place, if nothing else can
    be inserted there and skipping the next token does not help; the result is
    the one of the text in which the part is written out *)
Theorem C77_placeholder :
  forall T V (E : env T V) (fill : string -> list T) n A (g : gram T V A) l s1 s2 v mi get fmt locof r,
  wf_env E -> wf g -> cohere get (s1 ++ s2) locof -> lay_ok E g (s1 ++ s2) locof ->
  (forall p q, p <= List.length (s1 ++ s2) -> q <= List.length (s1 ++ s2) -> locof p = locof q -> p = q) ->
  everywhere E (completable_node E) g -> LL1 E g -> everywhere E (quiet_node E) g -> guarded E g ->
  everywhere E one_token_node g -> everywhere E (fun B q => ~ is_layout B q) g -> everywhere E eof_free_node g ->
  single_withs E g -> everywhere E (fill_node E fill) g ->
  gap E l A g s1 s2 v -> noticed E g s1 s2 -> (0 < mi)%Z ->
  (forall y s3 u, s2 = y :: s3 -> ~ sentence E g (s1 ++ s3) u) ->
  (forall l' w u, inserts E g l' w -> lang E A g (map inl s1 ++ w ++ map inl s2) u -> w = [inr l]) ->
  parse E n (seql g GEof) (s1 ++ s2) true mi get fmt = Ret r ->
  exists e, unwrap r false = Raises [e] /\ unwrap r true = Returns v /\
    ei_loc e = locof (List.length s1) /\ ei_op e = Some (Insert l) /\ sentence E g (s1 ++ fill l ++ s2) v.
Proof.
  intros T V E fill n A g l s1 s2 v mi get fmt locof r HE Hg Hco Hl Hinj Hc HL Hq Hgd H1 Hnl Hef Hsw Hf HP Hn Hm Hd Ho H.
  destruct (C77_forgotten_value _ _ _ _ _ _ _ _ _ _ _ _ _ _ _ HE Hg Hco Hl Hc HL Hq Hgd H1 Hnl Hef Hsw HP Hn Hm H) as (e & w & U1 & U2 & L & O).
  assert (FL : forall u, lang E A g (map inl s1 ++ [inr l] ++ map inl s2) u -> sentence E g (s1 ++ fill l ++ s2) u).
  { intros u K. apply (lang_filled E fill) in K; auto. rewrite !filled_app, !filled_inl in K. cbn in K. rewrite app_nil_r in K. exact K. }
  pose proof (parse_eof_ends _ _ _ _ _ _ _ _ _ _ H) as Hend.
  destruct (unwrap_repair _ _ _ _ _ _ _ _ _ _ _ H U2 U1) as (rc & rep & Hr & Hin & -> & Q).
  rewrite Hr in Hend. simpl in Hend. specialize (Hend _ Hin).
  destruct (repair_script_loc _ _ _ _ _ _ _ _ _ _ _ _ HE (wf_eof _ _ Hg) Hco (lay_eof _ _ _ _ _ Hl) H Hr Hin)
    as (es & E1 & _ & E2 & E3 & E4 & E5 & _).
  rewrite <- Q in E2. inversion E2 as [|e' [o p] es' ops (R1 & R2 & _) F Q1 Q2]. subst. inversion F. subst. cbn [fst snd] in R1, R2.
  symmetry in Q2. rewrite Q2 in E5.
  destruct (one_edit _ _ _ _ Q2) as (a & ed & b & -> & -> & K). cbn [Nat.add] in *.
  rewrite Hend in E1. unfold slice in E1. rewrite Nat.sub_0_r in E1. cbn [skipn] in E1. rewrite firstn_all in E1.
  assert (Ep : a = s1 /\ edit_in ed ++ b = s2).
  { unfold edits_in in E1. rewrite flat_map_app in E1. cbn [flat_map] in E1. fold (edits_in (map (@EKeep T) a)) in E1. fold (edits_in (map (@EKeep T) b)) in E1.
    rewrite !keep_in in E1.
    assert (La : List.length a = List.length s1).
    { apply Hinj; [rewrite <- E1, app_length; lia|rewrite app_length; lia|congruence]. }
    clear - E1 La. revert s1 E1 La. induction a as [|t a IH]; intros [|t' s1] E1 La; try discriminate; [auto|].
    injection E1 as -> E1. injection La as La. destruct (IH _ E1 La) as [-> ->]. auto. }
  destruct Ep as [-> Ep].
  apply (lang_inv E) in E3. cbn in E3. destruct E3 as (w1 & w2 & u1 & u2 & W & E3v & E3 & E3'). apply (lang_inv E) in E3'. cbn in E3'. subst w2. rewrite app_nil_r in W. subst w1.
  cbn in E3v.
  unfold edits_out in E3. rewrite flat_map_app in E3. cbn [flat_map] in E3. fold (edits_out (map (@EKeep T) s1)) in E3. fold (edits_out (map (@EKeep T) b)) in E3.
  rewrite !keep_out in E3.
  destruct ed as [t|ts|l' w]; [destruct K| |]; cbn in Ep, E3.
  - exfalso. subst o. rewrite R1 in O. destruct O as [O|[l' O]]; [|discriminate]. injection O as O. destruct ts as [|y [|? ?]]; try discriminate.
    cbn in Ep. apply (Hd y b u1 (eq_sym Ep)). unfold sentence. rewrite map_app. exact E3.
  - subst o b. assert (I : inserts E g l' w) by (apply inserts_eof, E4; apply in_or_app; right; left; reflexivity).
    pose proof (Ho l' w u1 I E3) as ->. exists e. split; auto. split; [|split; [auto|split; [|]]].
    + rewrite U2, E3v. f_equal. apply (C47_unambiguous T V E A g (s1 ++ fill l ++ s2) u1 v HE Hg Hc HL Hq Hgd); apply FL; auto. apply gap_lang. exact HP.
    + rewrite R1. f_equal. f_equal. destruct I as (B & q & _ & I). clear - I.
      destruct q; cbn in I; try contradiction; [destruct I as [_ I]; discriminate|destruct I as [_ I]; destruct x; discriminate|destruct I as [_ I]; congruence|destruct I as (? & ? & ? & _ & _ & I); congruence].
    + apply FL, gap_lang. exact HP.
Qed.
Print Assumptions C77_placeholder.
