(** Property C81: a mistyped token (WrongSpec.v). *)
From Verif Require Import Fuel ApiSpec ApiProofs Locations PegSpec PropsPeg DiagSpec DiagProofs PropsTerm PropsTotal PropsRec PropsRecovery
  FirstSpec First PropsFirst LL LangInv PropsLL Examples Mend PropsMend Miss PropsMiss Wrong.
Import ListNotations.

Lemma mend_wrong T V (E : env T V) A (g : gram T V A) s (get : loc -> list T -> nat -> loc) locof s1 x z s2 v mi :
  wf_env E -> wf g -> cohere get s locof -> lay_ok E g s locof ->
  everywhere E (completable_node E) g -> LL1 E g -> everywhere E (quiet_node E) g -> guarded E g ->
  everywhere E one_token_node g -> everywhere E eof_free_node g ->
  everywhere E (apart_node E x) g -> everywhere E (insertable_node x) g ->
  (forall y s3, s2 = y :: s3 -> everywhere E (firm_after_node E y x) g) ->
  sentence E g (s1 ++ x :: s2) v -> s = s1 ++ z :: s2 -> ~ viable E g (s1 ++ [z]) -> ~ viable E g (s1 ++ [x; z]) -> mi <> 0%Z ->
  exists r l, mend E s locof A (seql g GEof) 0 0 mi (Some mi) r /\ y_cost r = 2 /\ y_val r = v /\
    y_ops r = [(Insert l, locof (List.length s1)); (Skip 1, locof (List.length s1))].
Proof.
  intros HE Hg Hco Hl Hc HL Hq Hgd H1 Hef Ha Hi Hf Hv Hs Hn Hn2 Hm.
  destruct HL as (F & HL1 & HF). destruct (lay_gok _ _ _ _ _ HE Hg Hl) as [G1 G2].
  set (y := match s2 with [] => x | y :: _ => y end).
  destruct (wrong E s get locof HE Hco G2 F HF mi z y x (s2 <> []) A g _ v Hv Hm s1 s2 eq_refl 0%Z 0 (fun o => o = None) [] (Some mi)) as (r & M & G); auto.
  - apply (fits_g E g s get locof); auto. exists F. auto.
  - intros B q Ho. split; [apply Ha; auto|]. split; [apply Hi; auto|]. intros Ns. destruct s2 as [|y' s3]; [congruence|].
    apply (Hf y' s3 eq_refl B q Ho).
  - lia.
  - cbn [skipn]. rewrite app_nil_r. exact Hs.
  - intros Ns. split; auto. unfold y. destruct s2; [congruence|reflexivity].
  - eauto.
  - cbn [Nat.add] in G. destruct G as [(Q & G3 & G4 & G5 & l & G6)|(Q & G3 & G4 & G5 & l & G6)].
    + subst s2. assert (Ls : List.length s = List.length s1 + 1) by (rewrite Hs, app_length; reflexivity).
      eexists. exists l. split; [eapply md_seq_12; [exact M|rewrite G5; apply md_eof; lia]|].
      cbn. rewrite G3, G4, G6, Ls. replace (List.length s1 + 1 - List.length s1) with 1 by lia. auto.
    + assert (Ls : y_pos r = List.length s) by (rewrite G5, Hs, app_length; cbn; lia).
      eexists. exists l. split; [eapply md_seq_1; [exact M|rewrite Ls; apply pg_eof]|]. cbn. auto.
Qed.

(** ** A mistyped token costs at most two repairs, and the error is where it is *)
Theorem C81_wrong :
  forall T V (E : env T V) n A (g : gram T V A) s1 x z s2 v mi get fmt locof r,
  wf_env E -> wf g -> cohere get (s1 ++ z :: s2) locof -> lay_ok E g (s1 ++ z :: s2) locof ->
  everywhere E (completable_node E) g -> LL1 E g -> everywhere E (quiet_node E) g -> guarded E g ->
  everywhere E one_token_node g -> everywhere E (fun B q => ~ is_layout B q) g -> everywhere E eof_free_node g ->
  single_withs E g ->
  everywhere E (apart_node E x) g -> everywhere E (insertable_node x) g ->
  (forall y s3, s2 = y :: s3 -> everywhere E (firm_after_node E y x) g) ->
  sentence E g (s1 ++ x :: s2) v -> ~ viable E g (s1 ++ [z]) -> ~ viable E g (s1 ++ [x; z]) -> mi <> 0%Z ->
  parse E n (seql g GEof) (s1 ++ z :: s2) true mi get fmt = Ret r ->
  exists e errs ops w, unwrap r false = Raises (e :: errs) /\ unwrap r true = Returns w /\
    ei_loc e = locof (List.length s1) /\
    Forall2 (fun e o => ei_op e = Some o) (e :: errs) ops /\ ops_cost ops <= 2.
Proof.
  intros T V E n A g s1 x z s2 v mi get fmt locof r HE Hg Hco Hl Hc HL Hq Hgd H1 Hnl Hef Hsw Ha Hi Hf Hv Hn Hn2 Hm H.
  destruct (mend_wrong _ _ E A g _ get locof s1 x z s2 v mi HE Hg Hco Hl Hc HL Hq Hgd H1 Hef Ha Hi Hf Hv eq_refl Hn Hn2 Hm) as (y & l & My & Cy & _).
  destruct (C74_best_mend _ _ _ _ _ _ _ _ _ _ _ _ HE (wf_eof _ _ Hg) Hco (lay_eof _ _ _ _ _ Hl) H) as [K1 K2]. cbv zeta in K1, K2.
  destruct (unwrap r false) as [u|errs] eqn:U1; [destruct (K1 u eq_refl y My)|].
  destruct (K2 errs eq_refl) as [(e & _ & _ & _ & N)|(y' & M & U & R & B)]; [destruct (N y My)|].
  assert (C : y_cost y' <= 2).
  { destruct (Nat.leb_spec (y_cost y') 2); auto. destruct (B y My). left. lia. }
  destruct (first_at _ _ _ _ _ _ _ (z :: s2) _ _ _ _ _ _ _ _ HE Hg Hco Hl Hc HL H1 Hnl Hsw Hv Hn H U1) as (e & tl & -> & L).
  exists e, tl, (map fst (y_ops y')), (y_val y'). split; auto. split; auto. split; auto. split.
  - unfold y_reported in R. clear - R. induction R as [|a b la lb (R1 & _) _ IH]; cbn; constructor; auto.
  - destruct (mend_cost _ _ _ _ _ _ _ _ _ _ M) as (_ & _ & <-). exact C.
Qed.
Print Assumptions C81_wrong.
