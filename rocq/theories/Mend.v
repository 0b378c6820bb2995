(** Every way of mending the input (MendSpec.v) is among the repairs of a run
    with recovery that returns. *)
From Verif Require Import Laws.
From Verif Require Export MendSpec RecProofs Prios PegProofs.

Section Offers.
Context {T : Type}.
Definition like {A} (r : repair T A) (y : mended A) : Prop :=
  r_cost r = y_cost y /\ r_prio r = (if y_auto y then None else Some 0) /\ r_ins r = y_left y /\
  map opskel (r_ops r) = y_ops y /\ r_val r = y_val y /\ r_pos r = y_pos y.
Definition offers {A} (r : res T A) (y : mended A) : Prop :=
  exists rc rep, r = RRec rc /\ In rep (rc_reps rc) /\ like rep y.

Lemma mapM_in_fwd {A B} (f : A -> out B) l l' x : mapM f l = Ret l' -> In x l -> exists y, f x = Ret y /\ In y l'.
Proof.
  revert l'. induction l as [|a l IH]; intros l' H Hx; [contradiction|]. cbn in H.
  apply obind_ret in H as (y & Hy & H). apply obind_ret in H as (ys & Hys & H). injection H as <-.
  destruct Hx as [<-|Hx]; [exists y; cbn; auto|]. destruct (IH _ Hys Hx) as (z & Hz & Hin). exists z. cbn; auto.
Qed.
Lemma flat_mapM_in_fwd {A B} (f : A -> out (list B)) l l' x : flat_mapM f l = Ret l' -> In x l ->
  exists ys, f x = Ret ys /\ incl ys l'.
Proof.
  revert l'. induction l as [|a l IH]; intros l' H Hx; [contradiction|]. cbn in H.
  apply obind_ret in H as (y & Hy & H). apply obind_ret in H as (ys & Hys & H). injection H as <-.
  destruct Hx as [<-|Hx]; [exists y; split; auto; apply incl_appl, incl_refl|].
  destruct (IH _ Hys Hx) as (z & Hz & Hin). exists z. split; auto. apply incl_appr. exact Hin.
Qed.
Lemma offers_fmap {A B} (f : A -> out B) r r' y w :
  offers r y -> res_fmap f r = Ret r' -> f (y_val y) = Ret w -> offers r' (y_with y w).
Proof.
  intros (rc & rep & -> & Hin & L1 & L2 & L3 & L4 & L5 & L6) H Hf. cbn in H.
  apply obind_ret in H as (rc' & H & K). injection K as <-. unfold rec_fmap in H.
  apply obind_ret in H as (reps & H & K). injection K as <-.
  destruct (mapM_in_fwd _ _ _ _ H Hin) as (rep' & Hr & Hin'). unfold rep_fmap in Hr.
  rewrite L5, Hf in Hr. cbn in Hr. injection Hr as <-.
  eexists _, _. split; [reflexivity|]. split; [exact Hin'|]. repeat split; cbn; auto.
Qed.
Lemma offers_set_exp {A} x (r : res T A) y : offers r y -> offers (res_set_exp x r) y.
Proof.
  intros (rc & rep & -> & Hin & L1 & L2 & L3 & L4 & L5 & L6). cbn.
  eexists _, (rep_set_exp x rep). split; [reflexivity|]. split; [cbn; apply in_map; auto|].
  repeat split; cbn; auto. rewrite skel_set_exp. auto.
Qed.
Lemma offers_rec_set_exp {A} x (rc : recr T A) y : offers (RRec rc) y -> offers (RRec (rec_set_exp x rc)) y.
Proof. apply (offers_set_exp x (RRec rc) y). Qed.
Lemma offers_prepend {A} x b (r : res T A) y : offers r y -> offers (res_prepend x b r) y.
Proof.
  intros (rc & rep & -> & Hin & L1 & L2 & L3 & L4 & L5 & L6). cbn.
  eexists _, (rep_prepend x b rep). split; [reflexivity|]. split; [cbn; apply in_map; auto|].
  repeat split; cbn; auto. rewrite skel_prepend. auto.
Qed.
Lemma offers_set_ctx {A} x (r : res T A) y : offers r y -> offers (res_set_ctx x r) y.
Proof.
  intros (rc & rep & -> & Hin & L1 & L2 & L3 & L4 & L5 & L6). cbn.
  eexists _, _. split; [reflexivity|]. split; [cbn; apply in_map; exact Hin|].
  repeat split; cbn; auto.
Qed.
(** a repair that is continued *)
Lemma offers_cont_read {A B C} (rc : recr T A) ins F (merge : A -> B -> C) r rep y o :
  continue_parse rc ins F merge = Ret r -> In rep (rc_reps rc) -> like rep y ->
  F (r_val rep) (r_pos rep) (r_ctx rep) (r_ins rep) = Ret (ROk o) ->
  offers r (y_then_read ins merge y (ok_val o) (ok_pos o)).
Proof.
  intros H Hin (L1 & L2 & L3 & L4 & L5 & L6) HF. apply continue_ret in H as (reps & H & ->).
  destruct (flat_mapM_in_fwd _ _ _ _ H Hin) as (ys & Hys & Hincl). unfold cont_one in Hys. rewrite HF in Hys. injection Hys as <-.
  eexists _, _. split; [reflexivity|]. split; [apply Hincl; left; reflexivity|].
  repeat split; cbn -[Nat.eqb]; auto; rewrite ?L3, ?L5, ?L6; reflexivity.
Qed.
Lemma offers_cont_mend {A B C} (rc : recr T A) ins F (merge : A -> B -> C) r rep y r2 y2 :
  continue_parse rc ins F merge = Ret r -> In rep (rc_reps rc) -> like rep y ->
  F (r_val rep) (r_pos rep) (r_ctx rep) (r_ins rep) = Ret r2 -> offers r2 y2 ->
  offers r (y_then_mend merge y y2).
Proof.
  intros H Hin (L1 & L2 & L3 & L4 & L5 & L6) HF (rc2 & rep2 & -> & Hin2 & M1 & M2 & M3 & M4 & M5 & M6).
  apply continue_ret in H as (reps & H & ->).
  destruct (flat_mapM_in_fwd _ _ _ _ H Hin) as (ys & Hys & Hincl). unfold cont_one in Hys. rewrite HF in Hys. injection Hys as <-.
  eexists _, (cont_rec merge rep rep2). split; [reflexivity|].
  split; [apply Hincl, in_map, Hin2|]. repeat split; cbn; auto; try congruence.
  rewrite join_ops_skel. congruence.
Qed.
Lemma cont_returns {A B C} (rc : recr T A) ins F (merge : A -> B -> C) r rep :
  continue_parse rc ins F merge = Ret r -> In rep (rc_reps rc) ->
  exists r2, F (r_val rep) (r_pos rep) (r_ctx rep) (r_ins rep) = Ret r2.
Proof.
  intros H Hin. apply continue_ret in H as (reps & H & ->).
  destruct (flat_mapM_in_fwd _ _ _ _ H Hin) as (ys & Hys & _). unfold cont_one in Hys.
  apply obind_ret in Hys as (r2 & H2 & _). eauto.
Qed.
Lemma offers_join_l {A} x (a b : recr T A) y : offers (RRec a) y -> offers (RRec (rec_set_exp x (join_repairs a b))) y.
Proof.
  intros H. apply offers_rec_set_exp. destruct H as (rc & rep & K & Hin & L). injection K as <-.
  eexists _, rep. split; [reflexivity|]. split; [|exact L].
  unfold join_repairs. destruct (rc_min a), (rc_con a), (rc_con b); cbn; apply in_or_app; auto.
Qed.
Lemma offers_join_r {A} x (a b : recr T A) y : minok (RRec a) -> y_auto y = false ->
  offers (RRec b) y -> offers (RRec (rec_set_exp x (join_repairs a b))) y.
Proof.
  intros Hm Ha H. apply offers_rec_set_exp. destruct H as (rc & rep & K & Hin & L). injection K as <-.
  eexists _, rep. split; [reflexivity|]. split; [|exact L].
  destruct L as (_ & L & _). rewrite Ha in L.
  unfold join_repairs. cbn in Hm. destruct (rc_min a) as [k|]; [specialize (Hm _ eq_refl)|];
    destruct (rc_con a), (rc_con b); cbn -[Nat.ltb]; apply in_or_app; right; apply filter_In; rewrite L;
      split; auto; apply Nat.ltb_lt; lia.
Qed.
End Offers.

Section Mend.
Context {T : Type} {V : nat -> Type}.
Variable E : env T V.
Variable s : list T.
Variable get : loc -> list T -> nat -> loc.
Variable locof : nat -> loc.
Variable lay : Prop.
Hypothesis Hco : cohere get s locof.
Hypothesis Hlay : lay -> exactpos s locof.
Hypothesis HE : forall d, gok lay (E d).
Let CS := pos_system s get locof lay Hco Hlay.
Let Cok := pos_Cok (T:=T) get locof.
Let len := List.length s.
Notation mend := (mend E s locof).
Notation peg := (peg E s (fun i => loc_col (locof i))).
Notation rsem := (rsem E s locof).

(** what [peg] says about a run that returns *)
Lemma peg_read A (g : gram T V A) m i v j n c ins rem r : peg A g m i (PSucc v j) ->
  gok lay g -> i <= len -> Cok i c -> ctx_mark c = m ->
  full E n g s i c ins rem = Ret r ->
  exists o, r = ROk o /\ ok_val o = v /\ ok_pos o = j /\ i <= j <= len /\ ok_con o = Nat.ltb i j /\
    Cok j (ok_ctx o) /\ ctx_mark (ok_ctx o) = m.
Proof using Hco Hlay HE.
  intros H Hg Hi Hc Hm HF.
  destruct (peg_complete E s get locof lay Hco Hlay HE A g m i _ H Hg Hi c Hc Hm) as [n' Hn].
  apply abs_succ in Hn as (o & Hn & <- & <-).
  pose proof (sim_fast_full E n' A g s i c ins rem) as S. rewrite Hn in S. cbn in S.
  assert (K : Ret r = Ret (ROk o)).
  { rewrite <- HF, <- S. apply full_agree; congruence. }
  injection K as ->. exists o. split; auto.
  pose proof (fgood E s get locof lay Hco Hlay HE n A g i c ins rem _ Hg Hi Hc HF) as (G1 & G2 & G3 & G4).
  subst m. auto 10.
Qed.
Lemma peg_open A (g : gram T V A) m i n c ins r : peg A g m i (PFail false) ->
  gok lay g -> i <= len -> Cok i c -> ctx_mark c = m ->
  full E n g s i c ins None = Ret r -> exists e, r = RErr e /\ er_con e = false.
Proof using Hco Hlay HE.
  intros H Hg Hi Hc Hm HF.
  destruct (peg_complete E s get locof lay Hco Hlay HE A g m i _ H Hg Hi c Hc Hm) as [n' Hn].
  apply abs_fail in Hn as (e & Hn & He).
  pose proof (sim_fast_full E n' A g s i c ins None) as S. rewrite Hn in S. cbn in S. rewrite He in S.
  assert (K : Ret r = Ret (RErr e)) by (rewrite <- HF, <- S; apply full_agree; congruence).
  injection K as ->. eauto.
Qed.
Lemma rsem_run A (g : gram T V A) m i ins rem o n c r : rsem A g m i ins rem o ->
  gok lay g -> i <= len -> Cok i c -> ctx_mark c = m ->
  full E n g s i c ins rem = Ret r -> rab r = o.
Proof using Hco Hlay HE.
  intros H Hg Hi Hc Hm HF.
  destruct (rec_complete E s get locof lay Hco Hlay HE A g m i ins rem o H Hg Hi c Hc Hm) as [n' Hn].
  assert (K : full E n' g s i c ins rem = full E n g s i c ins rem).
  { apply full_agree; intros K; rewrite K in *; discriminate. }
  rewrite K, HF in Hn. cbn in Hn. congruence.
Qed.

Definition MP A (g : gram T V A) m i ins rem (y : mended A) : Prop :=
  gok lay g -> i <= len -> forall n c r, Cok i c -> ctx_mark c = m ->
  full E n g s i c ins rem = Ret r -> offers r y.

(** a repair of a run is at a good place *)
Lemma offer_good A (g : gram T V A) i ins rem n c r y : gok lay g -> i <= len -> Cok i c ->
  full E n g s i c ins rem = Ret r -> offers r y ->
  exists rc rep, r = RRec rc /\ In rep (rc_reps rc) /\ like rep y /\
    r_pos rep <= len /\ Cok (r_pos rep) (r_ctx rep) /\ ctx_mark (r_ctx rep) = ctx_mark c.
Proof using Hco Hlay HE.
  intros Hg Hi Hc HF (rc & rep & -> & Hin & L). exists rc, rep. split; auto. split; auto. split; auto.
  pose proof (fgood E s get locof lay Hco Hlay HE n A g i c ins rem _ Hg Hi Hc HF) as G. cbn in G.
  rewrite Forall_forall in G. apply (G _ Hin).
Qed.

Lemma lay_col A (g : gram T V A) i c : gok lay g -> is_layout A g -> i <= len -> Cok i c ->
  loc_col (ctx_loc (update_loc c s i)) = loc_col (locof i) /\ ctx_loc (update_loc c s i) = locof i.
Proof using Hco Hlay.
  intros Hg HL Hi Hc. pose proof (gall_node _ _ _ Hg) as [_ HL'].
  destruct (cs_col _ _ _ _ _ CS i c (HL' HL) Hc Hi) as [K1 K2]. auto.
Qed.

Lemma m_eof m i ins left : i < List.length s ->
  MP unit GEof m i ins (Some left) (y_skip ins tt (List.length s) (locof i) (List.length s - i)).
Proof using Hco Hlay.
  intros H Hg Hi [|n] c r Hc Hm HF; [discriminate|]. cbn [full] in HF. unfold eof_full in HF.
  destruct (Nat.eqb_spec i (List.length s)); [lia|].
  rewrite (RLoc s get locof lay Hco Hlay i c Hc Hi) in HF. injection HF as <-.
  eexists _, _. split; [reflexivity|]. split; [left; reflexivity|]. repeat split.
Qed.
Lemma m_sat test m i ins left j t : sat_miss test s i -> next_hit s (sat_hit test s) (sat_miss test s) i j t ->
  MP T (GSatisfy test) m i ins (Some left) (y_skip ins t (j + 1) (locof i) (j - i)).
Proof using Hco Hlay.
  intros H1 H2 Hg Hi [|n] c r Hc Hm HF; [discriminate|]. cbn [full] in HF. unfold satisfy_full in HF.
  rewrite (sat_miss_probe _ _ _ H1) in HF. cbn [obind] in HF.
  rewrite (search_hit s (probe_tok test s) (sat_hit test s) (sat_miss test s) i j t) in HF; auto.
  2: intros q x K; apply sat_hit_probe; auto. 2: intros q K; apply sat_miss_probe; auto.
  cbn in HF. rewrite (RLoc s get locof lay Hco Hlay i c Hc Hi) in HF. injection HF as <-.
  eexists _, _. split; [reflexivity|]. split; [left; reflexivity|]. repeat split.
Qed.
Lemma m_re A (re : list T -> nat -> option (nat * option A)) m i ins left j e v :
  re_miss re s i -> next_hit s (re_hit re s) (re_miss re s) i j (e, v) ->
  MP A (GRegexp re) m i ins (Some left) (y_skip ins v e (locof i) (j - i)).
Proof using Hco Hlay.
  intros H1 H2 Hg Hi [|n] c r Hc Hm HF; [discriminate|]. cbn [full] in HF. unfold regexp_full in HF.
  pose proof (re_miss_probe _ _ _ H1) as K. rewrite K in HF.
  rewrite (search_hit s (fun cur => Ret (probe_re re s cur)) (re_hit re s) (re_miss re s) i j (e, v)) in HF; auto.
  2: intros q x K'; f_equal; apply re_hit_probe; auto. 2: intros q K'; f_equal; apply re_miss_probe; auto.
  cbn in HF. rewrite (RLoc s get locof lay Hco Hlay i c Hc Hi) in HF. injection HF as <-.
  eexists _, _. split; [reflexivity|]. split; [left; reflexivity|]. repeat split.
Qed.
Lemma m_sym_skip teq x l m i ins left j t : sym_miss teq x s i -> next_hit s (sym_hit teq x s) (sym_miss teq x s) i j t ->
  MP T (GSym teq x l) m i ins (Some left) (y_skip ins t (j + 1) (locof i) (j - i)).
Proof using Hco Hlay.
  intros H1 H2 Hg Hi [|n] c r Hc Hm HF; [discriminate|]. cbn [full] in HF. unfold sym_full in HF.
  rewrite (sym_miss_probe _ _ _ _ H1) in HF. cbn [obind] in HF.
  rewrite (search_hit s (probe_sym teq x s) (sym_hit teq x s) (sym_miss teq x s) i j t) in HF; auto.
  2: intros q y K; apply sym_hit_probe; auto. 2: intros q K; apply sym_miss_probe; auto.
  cbn in HF. rewrite (RLoc s get locof lay Hco Hlay i c Hc Hi) in HF. injection HF as <-.
  eexists _, _. split; [reflexivity|]. split; [cbn; apply in_or_app; right; left; reflexivity|]. repeat split.
Qed.
Lemma m_sym_insert teq x l m i ins left : sym_miss teq x s i -> left <> 0%Z ->
  MP T (GSym teq x l) m i ins (Some left) (y_insert true left x i (locof i) l).
Proof using Hco Hlay.
  intros H1 H2 Hg Hi [|n] c r Hc Hm HF; [discriminate|]. cbn [full] in HF. unfold sym_full in HF.
  rewrite (sym_miss_probe _ _ _ _ H1) in HF. cbn [obind] in HF. apply Z.eqb_neq in H2. rewrite H2 in HF.
  rewrite (RLoc s get locof lay Hco Hlay i c Hc Hi) in HF.
  apply obind_ret in HF as (f & _ & HF). destruct f as [[k t]|]; injection HF as <-;
    (eexists _, _; split; [reflexivity|]; split; [left; reflexivity|]; repeat split).
Qed.
Lemma m_lit_skip teq x l m i ins left j : lit_miss teq x s i -> next_hit s (lit_hit teq x s) (lit_miss teq x s) i j tt ->
  MP (list T) (GLiteral teq x l) m i ins (Some left) (y_skip ins x (j + List.length x) (locof i) (j - i)).
Proof using Hco Hlay.
  intros H1 H2 Hg Hi [|n] c r Hc Hm HF; [discriminate|]. cbn [full] in HF. unfold literal_full in HF.
  change (starts_with teq x s i = false) in H1. rewrite H1 in HF.
  rewrite (search_hit s (probe_lit teq x s) (lit_hit teq x s) (lit_miss teq x s) i j tt) in HF; auto.
  2: intros q [] K; apply lit_hit_probe; auto. 2: intros q K; apply lit_miss_probe; auto.
  cbn in HF. rewrite (RLoc s get locof lay Hco Hlay i c Hc Hi) in HF. injection HF as <-.
  eexists _, _. split; [reflexivity|]. split; [cbn; apply in_or_app; right; left; reflexivity|]. repeat split.
Qed.
Lemma m_lit_insert teq x l m i ins left : lit_miss teq x s i -> left <> 0%Z ->
  MP (list T) (GLiteral teq x l) m i ins (Some left) (y_insert true left x i (locof i) l).
Proof using Hco Hlay.
  intros H1 H2 Hg Hi [|n] c r Hc Hm HF; [discriminate|]. cbn [full] in HF. unfold literal_full in HF.
  change (starts_with teq x s i = false) in H1. rewrite H1 in HF. apply Z.eqb_neq in H2. rewrite H2 in HF.
  rewrite (RLoc s get locof lay Hco Hlay i c Hc Hi) in HF.
  apply obind_ret in HF as (f & _ & HF). destruct f as [[k t]|]; injection HF as <-;
    (eexists _, _; split; [reflexivity|]; split; [left; reflexivity|]; repeat split).
Qed.
(** choice *)
Lemma m_alt_l A (p q : gram T V A) m i ins rem y : MP A p m i ins None y -> MP A (GAlt p q) m i ins rem y.
Proof using Hco Hlay HE.
  intros H Hg Hi [|n] c r Hc Hm HF; [discriminate|]. cbn [full] in HF. destruct Hg as [_ [Hg1 Hg2]].
  unfold alt_full in HF. apply obind_ret in HF as (r1 & H1 & HF).
  destruct (H Hg1 Hi n c r1 Hc Hm H1) as (rc & rep & -> & Hin & L).
  pose proof (none_open E s n A p i c ins rc H1) as K. destruct rc as [reps mn l X b]. cbn in K. subst b.
  injection HF as <-. eexists _, _. split; [reflexivity|]. split; [exact Hin|exact L].
Qed.
Lemma m_alt_r A (p q : gram T V A) m i ins rem y : peg A p m i (PFail false) ->
  MP A q m i ins None y -> MP A (GAlt p q) m i ins rem y.
Proof using Hco Hlay HE.
  intros Hp H Hg Hi [|n] c r Hc Hm HF; [discriminate|]. cbn [full] in HF. destruct Hg as [_ [Hg1 Hg2]].
  unfold alt_full in HF. apply obind_ret in HF as (r1 & H1 & HF).
  destruct (peg_open A p m i n c ins r1 Hp Hg1 Hi Hc Hm H1) as ([la xa ca] & -> & He). cbn in He. subst ca. cbn [obind] in HF.
  apply obind_ret in HF as (r2 & H2 & HF).
  destruct (H Hg2 Hi n c r2 Hc Hm H2) as (rc & rep & -> & Hin & L).
  pose proof (none_open E s n A q i c ins rc H2) as K. cbn [res_con] in HF. rewrite K in HF.
  injection HF as <-. eexists _, _. split; [reflexivity|]. split; [exact Hin|exact L].
Qed.
Lemma m_alt_both A (p q : gram T V A) m i ins left n c r :
  peg A p m i (PFail false) -> peg A q m i (PFail false) -> gok lay (GAlt p q) -> i <= len -> Cok i c -> ctx_mark c = m ->
  full E (S n) (GAlt p q) s i c ins (Some left) = Ret r ->
  exists l X r1 r2, full E n p s i c ins (Some left) = Ret r1 /\ full E n q s i c ins (Some left) = Ret r2 /\
    r = match r1, r2 with
        | RRec a, RRec b => RRec (rec_set_exp X (join_repairs a b))
        | RRec a, _ => RRec (rec_set_exp X a)
        | _, RRec b => RRec (rec_set_exp X b)
        | _, _ => RErr (Err l X false)
        end.
Proof using Hco Hlay HE.
  intros Hp Hq Hg Hi Hc Hm HF. cbn [full] in HF. destruct Hg as [_ [Hg1 Hg2]].
  unfold alt_full in HF. apply obind_ret in HF as (r1 & H1 & HF).
  destruct (peg_open A p m i n c ins r1 Hp Hg1 Hi Hc Hm H1) as ([la xa ca] & -> & He). cbn in He. subst ca. cbn [obind] in HF.
  apply obind_ret in HF as (r2 & H2 & HF).
  destruct (peg_open A q m i n c ins r2 Hq Hg2 Hi Hc Hm H2) as ([lb xb cb] & -> & He). cbn in He. subst cb. cbn [res_con er_con] in HF.
  unfold alt_recover in HF. apply obind_ret in HF as (r3 & H3 & HF). apply obind_ret in HF as (r4 & H4 & HF).
  exists la, (Append xa (res_exp (RErr (T:=T) (A:=A) (Err lb xb false)))), r3, r4. split; auto. split; auto.
  destruct r3, r4; injection HF as <-; reflexivity.
Qed.
Lemma m_alt_first A (p q : gram T V A) m i ins left y :
  peg A p m i (PFail false) -> peg A q m i (PFail false) ->
  MP A p m i ins (Some left) y -> MP A (GAlt p q) m i ins (Some left) y.
Proof using Hco Hlay HE.
  intros Hp Hq H Hg Hi [|n] c r Hc Hm HF; [discriminate|].
  destruct (m_alt_both A p q m i ins left n c r Hp Hq Hg Hi Hc Hm HF) as (l & X & r1 & r2 & H1 & H2 & ->).
  destruct Hg as [_ [Hg1 Hg2]]. pose proof (H Hg1 Hi n c r1 Hc Hm H1) as K.
  destruct r1 as [o|e|a]; [destruct K as (? & ? & K & _); discriminate..|].
  destruct r2; [apply offers_rec_set_exp; exact K..|apply offers_join_l; exact K].
Qed.
Lemma m_alt_later A (p q : gram T V A) m i ins left y :
  peg A p m i (PFail false) -> peg A q m i (PFail false) ->
  MP A q m i ins (Some left) y ->
  y_auto y = false \/ (exists b l X, rsem A p m i ins (Some left) (RFail b l X)) ->
  MP A (GAlt p q) m i ins (Some left) y.
Proof using Hco Hlay HE.
  intros Hp Hq H Ha Hg Hi [|n] c r Hc Hm HF; [discriminate|].
  destruct (m_alt_both A p q m i ins left n c r Hp Hq Hg Hi Hc Hm HF) as (l & X & r1 & r2 & H1 & H2 & ->).
  destruct Hg as [_ [Hg1 Hg2]]. pose proof (H Hg2 Hi n c r2 Hc Hm H2) as K.
  destruct r2 as [o|e|b]; [destruct K as (? & ? & K & _); discriminate..|].
  destruct r1 as [o|e|a]; [apply offers_rec_set_exp; exact K..|].
  destruct Ha as [Ha|(b0 & l0 & X0 & Ha)].
  - apply offers_join_r; auto. apply (full_min E n A p s i c ins (Some left)). exact H1.
  - apply (rsem_run A p m i ins (Some left) _ n c (RRec a)) in Ha; auto. discriminate.
Qed.
(** sequences *)
Lemma m_fmap A B (p : gram T V A) (f : A -> out B) m i ins rem y w :
  MP A p m i ins rem y -> f (y_val y) = Ret w -> MP B (GFmap p f) m i ins rem (y_with y w).
Proof.
  intros H Hf Hg Hi [|n] c r Hc Hm HF; [discriminate|]. cbn [full] in HF. destruct Hg as [_ Hg].
  unfold fmap_full in HF. apply obind_ret in HF as (r1 & H1 & HF).
  apply (offers_fmap f r1 r y w (H Hg Hi n c r1 Hc Hm H1) HF Hf).
Qed.
Lemma m_bind_2 A B (p : gram T V A) (f : A -> gram T V B) m i ins rem v j y :
  peg A p m i (PSucc v j) -> MP B (f v) m j ins (if Nat.ltb i j then Some ins else rem) y ->
  MP B (GBind p f) m i ins rem y.
Proof using Hco Hlay HE.
  intros Hp H Hg Hi [|n] c r Hc Hm HF; [discriminate|]. cbn [full] in HF. destruct Hg as [_ [Hg1 Hg2]].
  unfold bind_full in HF. apply obind_ret in HF as (r1 & H1 & HF).
  destruct (peg_read A p m i v j n c ins rem r1 Hp Hg1 Hi Hc Hm H1) as (o & -> & Hv & Hj & Hj' & Hcn & Hc' & Hm').
  rewrite Hcn, Hv, Hj in HF.
  assert (K : exists r2, full E n (f v) s j (ok_ctx o) ins (if Nat.ltb i j then Some ins else rem) = Ret r2 /\
     r = res_prepend (ok_exp o) (Nat.ltb i j) r2).
  { destruct (Nat.ltb i j); apply obind_ret in HF as (r2 & H2 & HF); injection HF as <-; eauto. }
  destruct K as (r2 & H2 & ->). apply offers_prepend. apply (H (Hg2 v) (proj2 Hj') n (ok_ctx o) r2 Hc' Hm' H2).
Qed.
Lemma m_bind_1 A B (p : gram T V A) (f : A -> gram T V B) m i ins rem y w k :
  MP A p m i ins rem y -> peg B (f (y_val y)) m (y_pos y) (PSucc w k) ->
  MP B (GBind p f) m i ins rem (y_then_read ins (fun _ w => w) y w k).
Proof using Hco Hlay HE.
  intros H Hp Hg Hi [|n] c r Hc Hm HF; [discriminate|]. cbn [full] in HF. destruct Hg as [_ [Hg1 Hg2]].
  unfold bind_full in HF. apply obind_ret in HF as (r1 & H1 & HF).
  destruct (offer_good A p i ins rem n c r1 y Hg1 Hi Hc H1 (H Hg1 Hi n c r1 Hc Hm H1)) as (rc & rep & -> & Hin & L & P1 & P2 & P3).
  destruct (cont_returns _ _ _ _ _ _ HF Hin) as (r2 & H2). pose proof H2 as H2'. cbv beta in H2.
  pose proof L as (_ & _ & _ & _ & L5 & L6). rewrite L5 in H2. rewrite L6 in H2, P1, P2.
  destruct (peg_read B _ m (y_pos y) w k n _ ins _ r2 Hp (Hg2 _) P1 P2 (eq_trans P3 Hm) H2) as (o & -> & <- & <- & _).
  eapply offers_cont_read; eauto.
Qed.
Lemma m_bind_12 A B (p : gram T V A) (f : A -> gram T V B) m i ins rem y y' :
  MP A p m i ins rem y -> MP B (f (y_val y)) m (y_pos y) ins (Some (y_left y)) y' ->
  MP B (GBind p f) m i ins rem (y_then_mend (fun _ w => w) y y').
Proof using Hco Hlay HE.
  intros H Hp Hg Hi [|n] c r Hc Hm HF; [discriminate|]. cbn [full] in HF. destruct Hg as [_ [Hg1 Hg2]].
  unfold bind_full in HF. apply obind_ret in HF as (r1 & H1 & HF).
  destruct (offer_good A p i ins rem n c r1 y Hg1 Hi Hc H1 (H Hg1 Hi n c r1 Hc Hm H1)) as (rc & rep & -> & Hin & L & P1 & P2 & P3).
  destruct (cont_returns _ _ _ _ _ _ HF Hin) as (r2 & H2). pose proof H2 as H2'. cbv beta in H2.
  pose proof L as (_ & _ & L3 & _ & L5 & L6). rewrite L5, L3 in H2. rewrite L6 in H2, P1, P2.
  eapply offers_cont_mend; eauto. apply (Hp (Hg2 _) P1 n _ r2 P2 (eq_trans P3 Hm) H2).
Qed.
Lemma m_seq_2 A B C (p : gram T V A) (q : gram T V B) (merge : A -> B -> C) m i ins rem v j y :
  peg A p m i (PSucc v j) -> MP B q m j ins (if Nat.ltb i j then Some ins else rem) y ->
  MP C (GSeq p q merge) m i ins rem (y_with y (merge v (y_val y))).
Proof using Hco Hlay HE.
  intros Hp H Hg Hi [|n] c r Hc Hm HF; [discriminate|]. cbn [full] in HF. destruct Hg as [_ [Hg1 Hg2]].
  unfold seq_full in HF. apply obind_ret in HF as (r1 & H1 & HF).
  destruct (peg_read A p m i v j n c ins rem r1 Hp Hg1 Hi Hc Hm H1) as (o & -> & Hv & Hj & Hj' & Hcn & Hc' & Hm').
  cbv zeta in HF. rewrite Hcn, Hv, Hj in HF. apply obind_ret in HF as (r2 & H2 & HF). apply obind_ret in HF as (r3 & H3 & HF).
  injection HF as <-. apply offers_prepend.
  eapply offers_fmap; [|exact H3|reflexivity]. apply (H Hg2 (proj2 Hj') n (ok_ctx o) r2 Hc' Hm' H2).
Qed.
Lemma m_seq_1 A B C (p : gram T V A) (q : gram T V B) (merge : A -> B -> C) m i ins rem y w k :
  MP A p m i ins rem y -> peg B q m (y_pos y) (PSucc w k) ->
  MP C (GSeq p q merge) m i ins rem (y_then_read ins merge y w k).
Proof using Hco Hlay HE.
  intros H Hp Hg Hi [|n] c r Hc Hm HF; [discriminate|]. cbn [full] in HF. destruct Hg as [_ [Hg1 Hg2]].
  unfold seq_full in HF. apply obind_ret in HF as (r1 & H1 & HF).
  destruct (offer_good A p i ins rem n c r1 y Hg1 Hi Hc H1 (H Hg1 Hi n c r1 Hc Hm H1)) as (rc & rep & -> & Hin & L & P1 & P2 & P3).
  destruct (cont_returns _ _ _ _ _ _ HF Hin) as (r2 & H2). pose proof H2 as H2'. cbv beta in H2.
  pose proof L as (_ & _ & _ & _ & L5 & L6). rewrite L6 in H2, P1, P2.
  destruct (peg_read B _ m (y_pos y) w k n _ ins _ r2 Hp Hg2 P1 P2 (eq_trans P3 Hm) H2) as (o & -> & <- & <- & _).
  eapply offers_cont_read; eauto.
Qed.
Lemma m_seq_12 A B C (p : gram T V A) (q : gram T V B) (merge : A -> B -> C) m i ins rem y y' :
  MP A p m i ins rem y -> MP B q m (y_pos y) ins (Some (y_left y)) y' ->
  MP C (GSeq p q merge) m i ins rem (y_then_mend merge y y').
Proof using Hco Hlay HE.
  intros H Hp Hg Hi [|n] c r Hc Hm HF; [discriminate|]. cbn [full] in HF. destruct Hg as [_ [Hg1 Hg2]].
  unfold seq_full in HF. apply obind_ret in HF as (r1 & H1 & HF).
  destruct (offer_good A p i ins rem n c r1 y Hg1 Hi Hc H1 (H Hg1 Hi n c r1 Hc Hm H1)) as (rc & rep & -> & Hin & L & P1 & P2 & P3).
  destruct (cont_returns _ _ _ _ _ _ HF Hin) as (r2 & H2). pose proof H2 as H2'. cbv beta in H2.
  pose proof L as (_ & _ & L3 & _ & L5 & L6). rewrite L3 in H2. rewrite L6 in H2, P1, P2.
  eapply offers_cont_mend; eauto. apply (Hp Hg2 P1 n _ r2 P2 (eq_trans P3 Hm) H2).
Qed.
(** maybe, many *)
Lemma m_maybe A (p : gram T V A) m i ins rem y : MP A p m i ins None y ->
  MP _ (GMaybe p) m i ins rem (y_with y (Some (y_val y))).
Proof using Hco Hlay HE.
  intros H Hg Hi [|n] c r Hc Hm HF; [discriminate|]. cbn [full] in HF. destruct Hg as [_ Hg].
  unfold maybe_full in HF. apply obind_ret in HF as (r1 & H1 & HF).
  pose proof (H Hg Hi n c r1 Hc Hm H1) as K. destruct r1 as [o|e|rc]; [destruct K as (? & ? & K & _); discriminate..|].
  cbn [res_con] in HF. rewrite (none_open E s n A p i c ins rc H1) in HF.
  eapply offers_fmap; [exact K|exact HF|reflexivity].
Qed.
(** one round of the loop, at full fuel *)
Lemma many_run A (p : gram T V A) n k pos c ins rem r : k <= n ->
  many_full (full E n p) k false [] s pos c ins = Ret r ->
  full E (S n) (GMany p) s pos c ins rem = Ret r.
Proof.
  intros Hk H. rewrite full_many.
  assert (L : lef (many_full (full E n p) k false [] s pos c ins) (many_full (full E n p) n false [] s pos c ins)).
  { apply lef_many_full; auto. intros; apply lef_refl. }
  destruct L as [L|L]; congruence.
Qed.
Lemma m_many_more A (p : gram T V A) m i ins rem v j y : peg A p m i (PSucc v j) ->
  MP _ (GMany p) m j ins None y -> MP _ (GMany p) m i ins rem (y_with y (v :: y_val y)).
Proof using Hco Hlay HE.
  intros Hp H Hg Hi [|n] c r Hc Hm HF; [discriminate|]. rewrite full_many in HF. pose proof Hg as [_ Hg1].
  destruct n as [|n]; [discriminate|]. rewrite many_full_S in HF. apply obind_ret in HF as (r1 & H1 & HF).
  destruct (peg_read A p m i v j _ c ins None r1 Hp Hg1 Hi Hc Hm H1) as (o & -> & Hv & Hj & Hj' & Hcn & Hc' & Hm').
  destruct (ok_con o); [|discriminate]. rewrite many_full_acc, Hv, Hj in HF. unfold omap in HF.
  destruct (many_full (full E (S n) p) n false [] s j (ok_ctx o) ins) as [r2|e|] eqn:H2; try discriminate.
  injection HF as <-. apply (many_run A p (S n) n j (ok_ctx o) ins None r2) in H2; [|lia].
  destruct (H Hg (proj2 Hj') _ (ok_ctx o) r2 Hc' Hm' H2) as (rc & rep & -> & Hin & L1 & L2 & L3 & L4 & L5 & L6).
  cbn. eexists _, _. split; [reflexivity|]. split; [cbn; apply in_map; exact Hin|].
  repeat split; cbn; auto. rewrite L5. reflexivity.
Qed.
Lemma m_many_1 A (p : gram T V A) m i ins rem y w k : MP A p m i ins None y ->
  peg _ (GMany p) m (y_pos y) (PSucc w k) -> MP _ (GMany p) m i ins rem (y_then_read ins cons y w k).
Proof using Hco Hlay HE.
  intros H Hp Hg Hi [|n] c r Hc Hm HF; [discriminate|]. rewrite full_many in HF. pose proof Hg as [_ Hg1].
  destruct n as [|n]; [discriminate|]. rewrite many_full_S in HF. apply obind_ret in HF as (r1 & H1 & HF).
  destruct (offer_good A p i ins None _ c r1 y Hg1 Hi Hc H1 (H Hg1 Hi _ c r1 Hc Hm H1)) as (rc & rep & -> & Hin & L & P1 & P2 & P3).
  destruct (cont_returns _ _ _ _ _ _ HF Hin) as (r2 & H2). pose proof H2 as H2'. cbv beta in H2.
  pose proof L as (_ & _ & _ & _ & L5 & L6). rewrite L6 in H2, P1, P2.
  apply (many_run A p (S n) n _ _ ins None r2) in H2; [|lia].
  destruct (peg_read _ _ m (y_pos y) w k _ _ ins _ r2 Hp Hg P1 P2 (eq_trans P3 Hm) H2) as (o & -> & <- & <- & _).
  exact (offers_cont_read _ _ _ (fun a b => [] ++ a :: b) _ _ _ _ HF Hin L H2').
Qed.
Lemma m_many_12 A (p : gram T V A) m i ins rem y y' : MP A p m i ins None y ->
  MP _ (GMany p) m (y_pos y) ins None y' -> MP _ (GMany p) m i ins rem (y_then_mend cons y y').
Proof using Hco Hlay HE.
  intros H Hp Hg Hi [|n] c r Hc Hm HF; [discriminate|]. rewrite full_many in HF. pose proof Hg as [_ Hg1].
  destruct n as [|n]; [discriminate|]. rewrite many_full_S in HF. apply obind_ret in HF as (r1 & H1 & HF).
  destruct (offer_good A p i ins None _ c r1 y Hg1 Hi Hc H1 (H Hg1 Hi _ c r1 Hc Hm H1)) as (rc & rep & -> & Hin & L & P1 & P2 & P3).
  destruct (cont_returns _ _ _ _ _ _ HF Hin) as (r2 & H2). pose proof H2 as H2'. cbv beta in H2.
  pose proof L as (_ & _ & _ & _ & L5 & L6). rewrite L6 in H2, P1, P2.
  apply (many_run A p (S n) n _ _ ins None r2) in H2; [|lia].
  exact (offers_cont_mend _ _ _ (fun a b => [] ++ a :: b) _ _ _ _ _ HF Hin L H2' (Hp Hg P1 _ _ r2 P2 (eq_trans P3 Hm) H2)).
Qed.
(** annotations *)
Lemma m_recover A (p : gram T V A) m i ins rem y : MP A p m i ins rem y ->
  MP A (GRecover p) m i ins rem
    {| y_cost := y_cost y; y_auto := false; y_left := y_left y; y_ops := y_ops y; y_val := y_val y; y_pos := y_pos y |}.
Proof using Hco Hlay HE.
  intros H Hg Hi [|n] c r Hc Hm HF; [discriminate|]. cbn [full] in HF. destruct Hg as [_ Hg].
  unfold recover_full in HF. apply obind_ret in HF as (r1 & H1 & HF).
  destruct (H Hg Hi n c r1 Hc Hm H1) as (rc & rep & -> & Hin & L1 & L2 & L3 & L4 & L5 & L6).
  injection HF as <-. eexists _, _. split; [reflexivity|]. split; [cbn; apply in_map; exact Hin|].
  repeat split; cbn; auto; rewrite ?L2; destruct (y_auto y); auto; destruct rep; cbn in *; subst; auto.
Qed.
Lemma m_with_gen A (p : pfull T A) mk lab (y : mended A) pos c ins rem r :
  (forall r, p s pos c ins rem = Ret r -> offers r y) ->
  recover_with_full p mk lab s pos c ins rem = Ret r -> offers r y.
Proof.
  intros H HF. unfold recover_with_full in HF. destruct rem as [z|]; [|auto].
  apply obind_ret in HF as (r1 & H1 & HF). destruct (H r1 H1) as (rc & rep & -> & Hin & L).
  destruct (res_con (RRec rc)); [injection HF as <-; eexists _, _; eauto|].
  destruct (Z.eqb z 0); [injection HF as <-; eexists _, _; eauto|].
  apply obind_ret in HF as (x & _ & HF). injection HF as <-. eexists _, rep. split; [reflexivity|]. split; [right; exact Hin|exact L].
Qed.
Lemma m_insert_gen A (p : gram T V A) n mk lab x m i ins left o c r : rsem A p m i ins (Some left) o -> ~ settled o -> left <> 0%Z ->
  mk s i = Ret x -> gok lay p -> i <= len -> Cok i c -> ctx_mark c = m ->
  recover_with_full (full E n p) mk lab s i c ins (Some left) = Ret r ->
  offers r (y_insert false left x i (locof i) (lab x)).
Proof using Hco Hlay HE.
  intros Ho Hs Hz Hx Hg Hi Hc Hm HF. unfold recover_with_full in HF. apply obind_ret in HF as (r1 & H1 & HF).
  pose proof (rsem_run A p m i ins (Some left) o n c r1 Ho Hg Hi Hc Hm H1) as K. subst o.
  apply Z.eqb_neq in Hz. rewrite Hz, Hx, (RLoc s get locof lay Hco Hlay i c Hc Hi) in HF. cbn [obind] in HF. cbv zeta in HF.
  destruct r1 as [o|e|rc]; cbn in Hs.
  - destruct (Hs I).
  - cbn [res_con] in HF. destruct (er_con e); [destruct (Hs eq_refl)|]. injection HF as <-.
    eexists _, _. split; [reflexivity|]. split; [left; reflexivity|]. repeat split.
  - cbn [res_con] in HF. destruct (rc_con rc); [destruct (Hs eq_refl)|]. injection HF as <-.
    eexists _, _. split; [reflexivity|]. split; [left; reflexivity|]. repeat split.
Qed.

Theorem mend_offered A (g : gram T V A) m i ins rem y : mend A g m i ins rem y -> MP A g m i ins rem y.
Proof using Hco Hlay HE.
  induction 1.
  - apply m_eof; auto.
  - apply m_sat; auto.
  - eapply m_sym_skip; eauto.
  - eapply m_lit_skip; eauto.
  - eapply m_re; eauto.
  - apply m_sym_insert; auto.
  - apply m_lit_insert; auto.
  - apply m_fmap; auto.
  - apply m_alt_l; auto.
  - apply m_alt_r; auto.
  - apply m_alt_first; auto.
  - apply m_alt_later; auto.
  - eapply m_bind_2; eauto.
  - apply m_bind_1; auto.
  - apply m_bind_12; auto.
  - eapply m_seq_2; eauto.
  - apply m_seq_1; auto.
  - apply m_seq_12; auto.
  - apply m_maybe; auto.
  - eapply m_many_more; eauto.
  - apply m_many_1; auto.
  - apply m_many_12; auto.
  - (* attempt *) intros Hg Hi [|n] c r Hc Hm HF; [discriminate|]. cbn [full] in HF. destruct Hg as [_ Hg].
    unfold attempt_full in HF. apply (IHmend Hg Hi n c r Hc Hm HF).
  - (* label *) intros Hg Hi [|n] c r Hc Hm HF; [discriminate|]. cbn [full] in HF. destruct Hg as [_ Hg].
    unfold label_full in HF. apply obind_ret in HF as (r1 & H1 & HF). injection HF as <-.
    apply offers_set_exp. apply (IHmend Hg Hi n c r1 Hc Hm H1).
  - apply m_recover; auto.
  - intros Hg Hi [|n] c r Hc Hm HF; [discriminate|]. cbn [full] in HF. destruct Hg as [_ Hg].
    eapply m_with_gen; [|exact HF]. intros r1 H1. apply (IHmend Hg Hi n c r1 Hc Hm H1).
  - intros Hg Hi [|n] c r Hc Hm HF; [discriminate|]. cbn [full] in HF. destruct Hg as [_ Hg].
    exact (m_insert_gen A p n _ (fun _ => lb) x m i ins left o c r H H0 H1 eq_refl Hg Hi Hc Hm HF).
  - intros Hg Hi [|n] c r Hc Hm HF; [discriminate|]. cbn [full] in HF. destruct Hg as [_ Hg].
    eapply m_with_gen; [|exact HF]. intros r1 H1. apply (IHmend Hg Hi n c r1 Hc Hm H1).
  - intros Hg Hi [|n] c r Hc Hm HF; [discriminate|]. cbn [full] in HF. destruct Hg as [_ Hg].
    exact (m_insert_gen A p n fn lab x m i ins left o c r H H0 H1 H2 Hg Hi Hc Hm HF).
  - (* block *) intros Hg Hi [|n] c r Hc Hm HF; [discriminate|]. cbn [full] in HF.
    destruct (lay_col _ _ i c Hg I Hi Hc) as [K _].
    pose proof (cs_upd _ _ _ _ _ CS i i c Hc ltac:(unfold len in *; lia)) as Hcu. destruct Hg as [_ Hg].
    unfold block_full in HF. cbv zeta in HF. rewrite K in HF. apply obind_ret in HF as (r1 & H1 & HF). injection HF as <-.
    apply offers_set_ctx. refine (IHmend Hg Hi n _ r1 _ _ H1); [exact Hcu|reflexivity].
  - (* aligned *) intros Hg Hi [|n] c r Hc Hm HF; [discriminate|]. cbn [full] in HF.
    destruct (lay_col _ _ i c Hg I Hi Hc) as [K _].
    pose proof (cs_upd _ _ _ _ _ CS i i c Hc ltac:(unfold len in *; lia)) as Hcu. destruct Hg as [_ Hg].
    unfold aligned_full in HF. cbv zeta in HF. rewrite upd_mark'', K, Hm, H, Z.eqb_refl in HF.
    refine (IHmend Hg Hi n _ r _ _ HF); [exact Hcu|rewrite upd_mark''; exact Hm].
  - (* indented *) intros Hg Hi [|n] c r Hc Hm HF; [discriminate|]. cbn [full] in HF.
    destruct (lay_col _ _ i c Hg I Hi Hc) as [K _].
    pose proof (cs_upd _ _ _ _ _ CS i i c Hc ltac:(unfold len in *; lia)) as Hcu. destruct Hg as [_ Hg].
    unfold indented_full in HF. cbv zeta in HF. rewrite upd_mark'', K, Hm, <- H, Z.eqb_refl in HF.
    apply obind_ret in HF as (r1 & H1 & HF). injection HF as <-.
    apply offers_set_ctx. refine (IHmend Hg Hi n _ r1 _ _ H1); [exact Hcu|reflexivity].
  - intros Hg Hi [|n] c r Hc Hm HF; [discriminate|]. cbn [full] in HF. apply (IHmend (HE d) Hi n c r Hc Hm HF).
Qed.

(** ** The converse: every repair of a run is a way of mending the input *)
Lemma run_read A (g : gram T V A) n i c ins rem o : gok lay g -> i <= len -> Cok i c ->
  full E n g s i c ins rem = Ret (ROk o) -> peg A g (ctx_mark c) i (PSucc (ok_val o) (ok_pos o)).
Proof using Hco Hlay HE.
  intros Hg Hi Hc HF. pose proof (sim_fast_full E n A g s i c ins rem) as S. rewrite HF in S.
  assert (K : fast E n g s i c = Ret (SOk o)).
  { destruct (fast E n g s i c) as [[o1|e]|e|]; cbn in S; try discriminate; [congruence|].
    destruct rem as [z|]; [destruct (S _ eq_refl)|]. destruct (er_con e); [destruct (S _ eq_refl) as [[] _]|discriminate]. }
  eapply (peg_sound E s get locof lay Hco Hlay HE n A g i c); auto. rewrite K. reflexivity.
Qed.
Lemma run_open A (g : gram T V A) n i c ins e : gok lay g -> i <= len -> Cok i c ->
  full E n g s i c ins None = Ret (RErr e) -> er_con e = false -> peg A g (ctx_mark c) i (PFail false).
Proof using Hco Hlay HE.
  intros Hg Hi Hc HF He. pose proof (sim_fast_full E n A g s i c ins None) as S. rewrite HF in S.
  assert (K : fast E n g s i c = Ret (SErr e)).
  { destruct (fast E n g s i c) as [[o1|e1]|e1|]; cbn in S; try discriminate.
    destruct (er_con e1); [destruct (S _ eq_refl) as [_ S']; cbn in S'; congruence|congruence]. }
  eapply (peg_sound E s get locof lay Hco Hlay HE n A g i c); auto. rewrite K. cbn. rewrite He. reflexivity.
Qed.
Definition yof {A} (r : repair T A) : mended A :=
  Mended (r_cost r) (match r_prio r with None => true | Some _ => false end) (r_ins r) (map opskel (r_ops r)) (r_val r) (r_pos r).
Definition OM A (g : gram T V A) m i ins rem (r : res T A) : Prop :=
  forall rc rep, r = RRec rc -> In rep (rc_reps rc) -> mend A g m i ins rem (yof rep).
Lemma yof_set_exp {A} x (r : repair T A) : yof (rep_set_exp x r) = yof r.
Proof. unfold yof. cbn. rewrite skel_set_exp. reflexivity. Qed.
Lemma yof_prepend {A} x b (r : repair T A) : yof (rep_prepend x b r) = yof r.
Proof. unfold yof. cbn. rewrite skel_prepend. reflexivity. Qed.
Lemma yof_cont_ok {A B C} ins (merge : A -> B -> C) r o :
  yof (cont_ok ins merge r o) = y_then_read ins merge (yof r) (ok_val o) (ok_pos o).
Proof. reflexivity. Qed.
Lemma yof_cont_rec {A B C} (merge : A -> B -> C) (r : repair T A) (r' : repair T B) :
  yof (cont_rec merge r r') = y_then_mend merge (yof r) (yof r').
Proof. unfold yof, y_then_mend. cbn. rewrite join_ops_skel. reflexivity. Qed.
Lemma OM_set_exp A (g : gram T V A) m i ins rem x r : OM A g m i ins rem r -> OM A g m i ins rem (res_set_exp x r).
Proof.
  intros H rc rep Hr Hin. destruct r as [o|e|rc0]; try discriminate. injection Hr as <-.
  cbn in Hin. apply in_map_iff in Hin as (rep0 & <- & Hin). rewrite yof_set_exp. eapply H; eauto.
Qed.
Lemma OM_set_ctx A (g : gram T V A) m i ins rem x r : OM A g m i ins rem r -> OM A g m i ins rem (res_set_ctx x r).
Proof.
  intros H rc rep Hr Hin. destruct r as [o|e|rc0]; try discriminate. injection Hr as <-.
  cbn in Hin. apply in_map_iff in Hin as (rep0 & <- & Hin). apply (H _ _ eq_refl Hin).
Qed.
(** continuations *)
Lemma cont_inv {A B C} (rc : recr T A) ins F (merge : A -> B -> C) r rc' rep' :
  continue_parse rc ins F merge = Ret r -> r = RRec rc' -> In rep' (rc_reps rc') ->
  exists rep, In rep (rc_reps rc) /\
    ((exists o, F (r_val rep) (r_pos rep) (r_ctx rep) (r_ins rep) = Ret (ROk o) /\ rep' = cont_ok ins merge rep o) \/
     (exists rc2 rep2, F (r_val rep) (r_pos rep) (r_ctx rep) (r_ins rep) = Ret (RRec rc2) /\ In rep2 (rc_reps rc2) /\
        rep' = cont_rec merge rep rep2)).
Proof.
  intros H Hr Hin. apply continue_ret in H as (reps & H & ->). injection Hr as <-. cbn in Hin.
  apply (flat_mapM_in _ _ _ _ H) in Hin as (rep & ys & Hrep & Hys & Hin'). exists rep. split; auto.
  unfold cont_one in Hys. apply obind_ret in Hys as (r2 & H2 & Hys). destruct r2 as [o|e|rc2]; injection Hys as <-.
  - left. exists o. split; auto. destruct Hin' as [<-|[]]. reflexivity.
  - destruct Hin'.
  - right. apply in_map_iff in Hin' as (rep2 & <- & Hin2). eauto.
Qed.
Lemma run_good A (g : gram T V A) n i c ins rem rc rep : gok lay g -> i <= len -> Cok i c ->
  full E n g s i c ins rem = Ret (RRec rc) -> In rep (rc_reps rc) ->
  r_pos rep <= len /\ Cok (r_pos rep) (r_ctx rep) /\ ctx_mark (r_ctx rep) = ctx_mark c.
Proof using Hco Hlay HE.
  intros Hg Hi Hc HF Hin.
  pose proof (fgood E s get locof lay Hco Hlay HE n A g i c ins rem _ Hg Hi Hc HF) as G. cbn in G.
  rewrite Forall_forall in G. apply (G _ Hin).
Qed.

Definition OH n : Prop := forall A (g : gram T V A) i c ins rem r, gok lay g -> i <= len -> Cok i c ->
  full E n g s i c ins rem = Ret r -> OM A g (ctx_mark c) i ins rem r.

Lemma o_many n A (p : gram T V A) : OH n -> gok lay (GMany p) -> forall k, k <= n -> forall i c ins rem r, i <= len -> Cok i c ->
  many_full (full E n p) k false [] s i c ins = Ret r -> OM _ (GMany p) (ctx_mark c) i ins rem r.
Proof using Hco Hlay HE.
  intros IH Hg k. pose proof Hg as [_ Hg1].
  induction k as [|k IHk]; intros Hk i c ins rem r Hi Hc HF; [discriminate|].
  rewrite many_full_S in HF. apply obind_ret in HF as (r1 & H1 & HF).
  pose proof (IH A p i c ins None r1 Hg1 Hi Hc H1) as I1. intros rc' rep' Hr Hin'.
  destruct r1 as [o|e|rc].
  - destruct (ok_con o) eqn:Hcon; [|discriminate]. pose proof (run_read A p n i c ins None o Hg1 Hi Hc H1) as Hp.
    pose proof (fgood E s get locof lay Hco Hlay HE n A p i c ins None _ Hg1 Hi Hc H1) as (G1 & G2 & G3 & G4).
    rewrite many_full_acc in HF. unfold omap in HF.
    destruct (many_full (full E n p) k false [] s (ok_pos o) (ok_ctx o) ins) as [r2|e2|] eqn:H2; try discriminate.
    apply (IHk ltac:(lia) _ _ _ None) in H2; [|unfold len in *; lia|exact G3]. rewrite G4 in H2.
    injection HF as HF. rewrite Hr in HF. destruct r2 as [o2|e2|rc2]; try discriminate. cbn in HF. injection HF as HF. subst rc'.
    cbn in Hin'. apply in_map_iff in Hin' as (rep2 & <- & Hin2).
    apply (md_many_more E s locof A p _ i ins rem _ _ (yof rep2) Hp (H2 _ _ eq_refl Hin2)).
  - destruct (er_con e); injection HF as <-; discriminate.
  - destruct (cont_inv _ _ _ _ _ _ _ HF Hr Hin') as (rep & Hin & [(o & HF2 & ->)|(rc2 & rep2 & HF2 & Hin2 & ->)]);
      destruct (run_good A p n i c ins None rc rep Hg1 Hi Hc H1 Hin) as (P1 & P2 & P3); cbv beta in HF2.
    + apply (many_run A p n k _ _ ins None) in HF2; [|lia]. apply run_read in HF2; auto. rewrite P3 in HF2.
      rewrite yof_cont_ok. apply (md_many_1 E s locof A p _ i ins rem (yof rep) (ok_val o) (ok_pos o)); auto. eapply I1; eauto.
    + apply (IHk ltac:(lia) _ _ _ None) in HF2; auto. rewrite P3 in HF2. rewrite yof_cont_rec.
      apply (md_many_12 E s locof A p _ i ins rem (yof rep) (yof rep2)); [eapply I1; eauto|eapply HF2; eauto].
Qed.
Lemma o_with n A (p : gram T V A) mk lab i c ins left r : OH n -> gok lay p -> i <= len -> Cok i c ->
  recover_with_full (full E n p) mk lab s i c ins (Some left) = Ret r ->
  OM A p (ctx_mark c) i ins (Some left) r \/
  exists o x, rsem A p (ctx_mark c) i ins (Some left) o /\ ~ settled o /\ left <> 0%Z /\ mk s i = Ret x /\
    forall rc rep, r = RRec rc -> In rep (rc_reps rc) ->
      mend A p (ctx_mark c) i ins (Some left) (yof rep) \/ yof rep = y_insert false left x i (locof i) (lab x).
Proof using Hco Hlay HE.
  intros IH Hg Hi Hc HF. unfold recover_with_full in HF. apply obind_ret in HF as (r1 & H1 & HF).
  pose proof (IH A p i c ins (Some left) r1 Hg Hi Hc H1) as I1.
  rewrite (RLoc s get locof lay Hco Hlay i c Hc Hi) in HF.
  assert (HR : rsem A p (ctx_mark c) i ins (Some left) (rab r1)).
  { eapply (rec_sound E s get locof lay Hco Hlay HE n); eauto. rewrite H1. reflexivity. }
  destruct r1 as [o|e|rc]; [injection HF as <-; auto| |].
  - cbn [res_con] in HF. destruct (er_con e) eqn:He; [injection HF as <-; auto|].
    destruct (Z.eqb_spec left 0); [injection HF as <-; auto|]. apply obind_ret in HF as (x & Hx & HF).
    injection HF as <-. right. eexists _, x. split; [exact HR|]. split; [cbn; congruence|]. split; auto. split; auto.
    intros rc rep Hr Hin. injection Hr as <-. destruct Hin as [<-|[]]. right. reflexivity.
  - cbn [res_con] in HF. destruct (rc_con rc) eqn:He; [injection HF as <-; auto|].
    destruct (Z.eqb_spec left 0); [injection HF as <-; auto|]. apply obind_ret in HF as (x & Hx & HF).
    injection HF as <-. right. eexists _, x. split; [exact HR|]. split; [cbn; congruence|]. split; auto. split; auto.
    intros rc' rep Hr Hin. injection Hr as <-. destruct Hin as [<-|Hin]; [right; reflexivity|]. left. eapply I1; eauto.
Qed.
Lemma search_of {X} (probe : nat -> out (option X)) (hit : nat -> X -> Prop) (miss : nat -> Prop) i j x :
  (forall q y, probe q = Ret (Some y) -> hit q y) -> (forall q, probe q = Ret None -> miss q) ->
  skip_search s i probe = Ret (Some (j, x)) -> next_hit s hit miss i j x.
Proof.
  intros K1 K2 H. pose proof (search_inv s probe hit miss i K1 K2) as SI. rewrite H in SI. exact SI.
Qed.

Theorem mend_only n : OH n.
Proof using Hco Hlay HE.
  induction n as [|n IH]; intros A g i c ins rem r Hg Hi Hc HF; [discriminate|].
  pose proof (RLoc s get locof lay Hco Hlay i c Hc Hi) as HL.
  intros rc rep Hr Hin. subst r.
  destruct g as [A x|A f|A l| |test|teq x l|teq x l|A re|A B p f|A p q|A B p f|A B C p q merge|A p|A p|A p|A p x|A p|A p x lb|A p fn lab|A p|A p|A delta p|d|A];
    cbn [full] in HF.
  - discriminate.
  - unfold purefn_full in HF. apply obind_ret in HF as (? & _ & HF). discriminate.
  - discriminate.
  - unfold eof_full in HF. destruct (Nat.eqb_spec i (List.length s)); [discriminate|].
    destruct rem as [left|]; [|discriminate]. rewrite HL in HF. injection HF as <-. destruct Hin as [<-|[]]. apply md_eof. unfold len in Hi. lia.
  - (* satisfy *) unfold satisfy_full in HF. apply obind_ret in HF as (t & Ht & HF). destruct t; [discriminate|].
    destruct rem as [left|]; [|discriminate]. apply obind_ret in HF as (f & Hf & HF).
    destruct f as [[j t]|]; [|discriminate]. rewrite HL in HF. injection HF as <-. destruct Hin as [<-|[]].
    assert (K : forall q, probe_tok test s q = Ret None -> sat_miss test s q).
    { intros q K. pose proof (probe_tok_iff test s q) as K'. rewrite K in K'. exact K'. }
    apply (md_sat E s locof test (ctx_mark c) i ins left j t); auto. eapply search_of; [|exact K|exact Hf].
    intros q y K1. pose proof (probe_tok_iff test s q) as K'. rewrite K1 in K'. exact K'.
  - (* sym *) unfold sym_full in HF. apply obind_ret in HF as (t & Ht & HF). destruct t; [discriminate|].
    destruct rem as [left|]; [|discriminate]. apply obind_ret in HF as (f & Hf & HF). rewrite HL in HF.
    assert (K : forall q, probe_sym teq x s q = Ret None -> sym_miss teq x s q).
    { intros q K. pose proof (probe_sym_iff teq x s q) as K'. rewrite K in K'. exact K'. }
    assert (KI : forall rep, In rep (if Z.eqb left 0 then [] else [make_insert left x i c (locof i) l [l]]) ->
      mend T (GSym teq x l) (ctx_mark c) i ins (Some left) (yof rep)).
    { intros rep0. destruct (Z.eqb_spec left 0); [intros []|]. intros [<-|[]]. apply (md_sym_insert E s locof teq x l); auto. }
    destruct f as [[j t]|]; injection HF as <-; cbn [rc_reps] in Hin; auto.
    apply in_app_or in Hin as [Hin|[<-|[]]]; auto.
    apply (md_sym_skip E s locof teq x l (ctx_mark c) i ins left j t); auto. eapply search_of; [|exact K|exact Hf].
    intros q y K1. pose proof (probe_sym_iff teq x s q) as K'. rewrite K1 in K'. exact K'.
  - (* literal *) unfold literal_full in HF. destruct (starts_with teq x s i) eqn:Hs; [discriminate|].
    destruct rem as [left|]; [|discriminate]. apply obind_ret in HF as (f & Hf & HF). rewrite HL in HF.
    assert (K : forall q, probe_lit teq x s q = Ret None -> lit_miss teq x s q).
    { intros q K. unfold probe_lit, lit_miss in *. change (stands_at teq x s q) with (starts_with teq x s q). destruct (starts_with teq x s q); congruence. }
    assert (KI : forall rep, In rep (if Z.eqb left 0 then [] else [make_insert left x i c (locof i) l [l]]) ->
      mend _ (GLiteral teq x l) (ctx_mark c) i ins (Some left) (yof rep)).
    { intros rep0. destruct (Z.eqb_spec left 0); [intros []|]. intros [<-|[]]. apply (md_lit_insert E s locof teq x l); auto. }
    destruct f as [[j []]|]; injection HF as <-; cbn [rc_reps] in Hin; auto.
    apply in_app_or in Hin as [Hin|[<-|[]]]; auto.
    apply (md_lit_skip E s locof teq x l (ctx_mark c) i ins left j); auto. eapply search_of; [|exact K|exact Hf].
    intros q y K1. unfold probe_lit, lit_hit in *. change (stands_at teq x s q) with (starts_with teq x s q). destruct (starts_with teq x s q); congruence.
  - (* regexp *) unfold regexp_full in HF. destruct (probe_re re s i) as [[e v]|] eqn:Hp; [discriminate|].
    destruct rem as [left|]; [|discriminate]. apply obind_ret in HF as (f & Hf & HF). rewrite HL in HF.
    assert (K : forall q, Ret (probe_re re s q) = Ret None -> re_miss re s q).
    { intros q K. pose proof (probe_re_iff re s q) as K'. injection K as K. rewrite K in K'. exact K'. }
    destruct f as [[j [e v]]|]; [|discriminate]. injection HF as <-. destruct Hin as [<-|[]].
    apply (md_re E s locof A re (ctx_mark c) i ins left j e v); [apply K; congruence|]. eapply search_of; [|exact K|exact Hf].
    intros q y K1. pose proof (probe_re_iff re s q) as K'. injection K1 as K1. rewrite K1 in K'. exact K'.
  - (* fmap *) destruct Hg as [_ Hg]. unfold fmap_full in HF. apply obind_ret in HF as (r1 & H1 & HF).
    pose proof (IH _ p i c ins rem r1 Hg Hi Hc H1) as I1. destruct r1 as [o|e|rc1]; cbn in HF.
    + apply obind_ret in HF as (? & _ & HF). discriminate.
    + discriminate.
    + apply obind_ret in HF as (rc2 & H2 & HF). injection HF as <-. unfold rec_fmap in H2.
      apply obind_ret in H2 as (reps & H2 & K). injection K as <-. cbn in Hin.
      apply (mapM_in _ _ _ _ H2) in Hin as (rep1 & Hin1 & Hf). unfold rep_fmap in Hf. apply obind_ret in Hf as (w & Hw & Hf). injection Hf as <-.
      apply (md_fmap E s locof A B p f _ i ins rem (yof rep1) w); auto. eapply I1; eauto.
  - (* alt *) destruct Hg as [_ [Hg1 Hg2]]. unfold alt_full in HF. apply obind_ret in HF as (r1 & H1 & HF).
    pose proof (IH A p i c ins None r1 Hg1 Hi Hc H1) as I1.
    destruct r1 as [o|[la xa ca]|rc1].
    + discriminate.
    + destruct ca; [discriminate|]. pose proof (run_open A p n i c ins _ Hg1 Hi Hc H1 eq_refl) as P1.
      apply obind_ret in HF as (r2 & H2 & HF). pose proof (IH A q i c ins None r2 Hg2 Hi Hc H2) as I2.
      destruct r2 as [o|[lb xb cb]|rc2].
      * cbn in HF. destruct (ok_con o); discriminate.
      * cbn [res_con er_con] in HF. destruct cb; [discriminate|]. pose proof (run_open A q n i c ins _ Hg2 Hi Hc H2 eq_refl) as P2.
        unfold alt_recover in HF. destruct rem as [left|]; [|discriminate].
        apply obind_ret in HF as (r3 & H3 & HF). apply obind_ret in HF as (r4 & H4 & HF).
        pose proof (IH A p i c ins _ r3 Hg1 Hi Hc H3) as I3. pose proof (IH A q i c ins _ r4 Hg2 Hi Hc H4) as I4.
        assert (NO : forall o, r3 <> ROk o).
        { intros o ->. apply run_read in H3; auto. 
          pose proof (peg_read A p _ i _ _ n c ins None _ H3 Hg1 Hi Hc eq_refl H1) as (? & K & _). discriminate. }
        destruct r3 as [o|e3|a]; [destruct (NO o eq_refl)| |].
        -- destruct r4 as [o|e4|b]; try discriminate. injection HF as <-. cbn in Hin.
           apply in_map_iff in Hin as (rep0 & <- & Hin). rewrite yof_set_exp.
           apply md_alt_later; auto; [eapply I4; eauto|]. right. do 3 eexists.
           eapply (rec_sound E s get locof lay Hco Hlay HE n); eauto. rewrite H3. reflexivity.
        -- destruct r4 as [o|e4|b].
           ++ injection HF as <-. cbn in Hin. apply in_map_iff in Hin as (rep0 & <- & Hin). rewrite yof_set_exp.
              apply md_alt_first; auto. eapply I3; eauto.
           ++ injection HF as <-. cbn in Hin. apply in_map_iff in Hin as (rep0 & <- & Hin). rewrite yof_set_exp.
              apply md_alt_first; auto. eapply I3; eauto.
           ++ injection HF as <-. cbn in Hin. apply in_map_iff in Hin as (rep0 & <- & Hin). rewrite yof_set_exp.
              assert (K : In rep0 (rc_reps a) \/ (In rep0 (rc_reps b) /\ r_prio rep0 <> None)).
              { unfold join_repairs in Hin. destruct (rc_min a) as [k|]; destruct (rc_con a), (rc_con b); cbn -[Nat.ltb] in Hin;
                  apply in_app_or in Hin as [Hin|Hin]; auto; right; apply filter_In in Hin as [Hin Hf]; split; auto;
                  intros K; rewrite K in Hf; discriminate. }
              destruct K as [K|[K Kp]]; [apply md_alt_first; auto; eapply I3; eauto|].
              apply md_alt_later; auto; [eapply I4; eauto|]. left. unfold yof. cbn. destruct (r_prio rep0); congruence.
      * cbn [res_con] in HF. rewrite (none_open E s n A q i c ins rc2 H2) in HF. injection HF as <-.
        apply md_alt_r; auto. eapply I2; eauto.
    + pose proof (none_open E s n A p i c ins rc1 H1) as K. destruct rc1 as [reps mn l X b]. cbn in K. subst b. injection HF as <-.
      apply md_alt_l. eapply I1; eauto.
  - (* bind *) destruct Hg as [_ [Hg1 Hg2]]. unfold bind_full in HF. apply obind_ret in HF as (r1 & H1 & HF).
    pose proof (IH A p i c ins rem r1 Hg1 Hi Hc H1) as I1. destruct r1 as [o|e|rc1]; [|discriminate|].
    + pose proof (run_read A p n i c ins rem o Hg1 Hi Hc H1) as Hp.
      pose proof (fgood E s get locof lay Hco Hlay HE n A p i c ins rem _ Hg1 Hi Hc H1) as (G1 & G2 & G3 & G4). rewrite G2 in HF.
      assert (K : exists r2, full E n (f (ok_val o)) s (ok_pos o) (ok_ctx o) ins (if Nat.ltb i (ok_pos o) then Some ins else rem) = Ret r2 /\
        res_prepend (ok_exp o) (Nat.ltb i (ok_pos o)) r2 = RRec rc).
      { destruct (Nat.ltb i (ok_pos o)); apply obind_ret in HF as (r2 & H2 & HF); exists r2; split; auto; congruence. }
      destruct K as (r2 & H2 & K). pose proof (IH B _ _ _ ins _ r2 (Hg2 _) (proj2 G1) G3 H2) as I2. rewrite G4 in I2.
      destruct r2 as [o2|e2|rc2]; try discriminate. injection K as <-. cbn in Hin. apply in_map_iff in Hin as (rep0 & <- & Hin).
      rewrite yof_prepend. eapply md_bind_2; [exact Hp|]. eapply I2; eauto.
    + destruct (cont_inv _ _ _ _ _ _ _ HF eq_refl Hin) as (rep1 & Hin1 & [(o & HF2 & ->)|(rc2 & rep2 & HF2 & Hin2 & ->)]);
        destruct (run_good A p n i c ins rem rc1 rep1 Hg1 Hi Hc H1 Hin1) as (P1 & P2 & P3); cbv beta in HF2.
      * apply run_read in HF2; [|apply Hg2|exact P1|exact P2]. rewrite P3 in HF2. rewrite yof_cont_ok.
        apply (md_bind_1 E s locof A B p f _ i ins rem (yof rep1) (ok_val o) (ok_pos o)); auto. eapply I1; eauto.
      * pose proof (IH B _ _ _ ins _ _ (Hg2 _) P1 P2 HF2) as I2. rewrite P3 in I2. rewrite yof_cont_rec.
        apply (md_bind_12 E s locof A B p f _ i ins rem (yof rep1) (yof rep2)); [eapply I1; eauto|eapply I2; eauto].
  - (* seq *) destruct Hg as [_ [Hg1 Hg2]]. unfold seq_full in HF. apply obind_ret in HF as (r1 & H1 & HF).
    pose proof (IH A p i c ins rem r1 Hg1 Hi Hc H1) as I1. destruct r1 as [o|e|rc1]; [|discriminate|].
    + pose proof (run_read A p n i c ins rem o Hg1 Hi Hc H1) as Hp.
      pose proof (fgood E s get locof lay Hco Hlay HE n A p i c ins rem _ Hg1 Hi Hc H1) as (G1 & G2 & G3 & G4).
      cbv zeta in HF. rewrite G2 in HF. apply obind_ret in HF as (r2 & H2 & HF). apply obind_ret in HF as (r3 & H3 & HF).
      pose proof (IH B _ _ _ ins _ r2 Hg2 (proj2 G1) G3 H2) as I2. rewrite G4 in I2.
      rewrite res_fmap_pure in H3. injection H3 as <-.
      destruct r2 as [o2|e2|rc2]; try discriminate. injection HF as <-. cbn in Hin. apply in_map_iff in Hin as (rep0 & <- & Hin).
      rewrite yof_prepend. apply in_map_iff in Hin as (rep2 & <- & Hin).
      apply (md_seq_2 E s locof A B C p q merge _ i ins rem _ _ (yof rep2) Hp). eapply I2; eauto.
    + destruct (cont_inv _ _ _ _ _ _ _ HF eq_refl Hin) as (rep1 & Hin1 & [(o & HF2 & ->)|(rc2 & rep2 & HF2 & Hin2 & ->)]);
        destruct (run_good A p n i c ins rem rc1 rep1 Hg1 Hi Hc H1 Hin1) as (P1 & P2 & P3); cbv beta in HF2.
      * apply run_read in HF2; auto. rewrite P3 in HF2. rewrite yof_cont_ok.
        apply (md_seq_1 E s locof A B C p q merge _ i ins rem (yof rep1) (ok_val o) (ok_pos o)); auto. eapply I1; eauto.
      * pose proof (IH B _ _ _ ins _ _ Hg2 P1 P2 HF2) as I2. rewrite P3 in I2. rewrite yof_cont_rec.
        apply (md_seq_12 E s locof A B C p q merge _ i ins rem (yof rep1) (yof rep2)); [eapply I1; eauto|eapply I2; eauto].
  - (* maybe *) destruct Hg as [_ Hg]. unfold maybe_full in HF. apply obind_ret in HF as (r1 & H1 & HF).
    pose proof (IH A p i c ins None r1 Hg Hi Hc H1) as I1. destruct r1 as [o|e|rc1].
    + cbn in HF. discriminate.
    + cbn in HF. destruct (er_con e); discriminate.
    + cbn [res_con] in HF. rewrite (none_open E s n A p i c ins rc1 H1) in HF. rewrite res_fmap_pure in HF. injection HF as <-.
      cbn in Hin. apply in_map_iff in Hin as (rep1 & <- & Hin).
      apply (md_maybe E s locof A p _ i ins rem (yof rep1)). eapply I1; eauto.
  - (* many *) eapply (o_many n A p IH Hg n (le_n _) i c ins rem); eauto.
  - (* attempt *) destruct Hg as [_ Hg]. unfold attempt_full in HF. destruct rem as [left|].
    + apply md_attempt. eapply IH; eauto.
    + apply obind_ret in HF as (r1 & H1 & HF). destruct r1; discriminate.
  - (* label *) destruct Hg as [_ Hg]. unfold label_full in HF. apply obind_ret in HF as (r1 & H1 & HF). injection HF as HF.
    apply md_label. eapply (OM_set_exp A p _ i ins rem [x] r1); eauto.
  - (* recover *) destruct Hg as [_ Hg]. unfold recover_full in HF. apply obind_ret in HF as (r1 & H1 & HF).
    pose proof (IH A p i c ins rem r1 Hg Hi Hc H1) as I1. destruct r1 as [o|e|rc1]; try discriminate. injection HF as <-.
    cbn in Hin. apply in_map_iff in Hin as (rep1 & <- & Hin). specialize (I1 _ _ eq_refl Hin).
    apply md_recover in I1. unfold yof in *. cbn in *. unfold rep_set_prio. destruct (r_prio rep1) eqn:Hpr; cbn; rewrite ?Hpr; exact I1.
  - (* recover_with *) destruct Hg as [_ Hg]. destruct rem as [left|]; [|apply md_with; eapply IH; eauto].
    destruct (o_with n A p (fun _ _ => Ret x) (fun _ => lb) i c ins left _ IH Hg Hi Hc HF) as [K|(o & x0 & K1 & K2 & K3 & K4 & K5)].
    + apply md_with. eapply K; eauto.
    + injection K4 as <-. destruct (K5 _ _ eq_refl Hin) as [K6|K6]; [apply md_with; exact K6|rewrite K6].
      eapply md_with_insert; eauto.
  - (* recover_with_fn *) destruct Hg as [_ Hg]. destruct rem as [left|]; [|apply md_withfn; eapply IH; eauto].
    destruct (o_with n A p fn lab i c ins left _ IH Hg Hi Hc HF) as [K|(o & x0 & K1 & K2 & K3 & K4 & K5)].
    + apply md_withfn. eapply K; eauto.
    + destruct (K5 _ _ eq_refl Hin) as [K6|K6]; [apply md_withfn; exact K6|rewrite K6].
      eapply md_withfn_insert; eauto.
  - (* block *) destruct (lay_col _ _ i c Hg I Hi Hc) as [K _].
    pose proof (cs_upd _ _ _ _ _ CS i i c Hc ltac:(unfold len in *; lia)) as Hcu. destruct Hg as [_ Hg].
    unfold block_full in HF. cbv zeta in HF. rewrite K in HF. apply obind_ret in HF as (r1 & H1 & HF). injection HF as HF.
    apply md_block. eapply (OM_set_ctx A p _ i ins rem _ r1); eauto.
    pose proof (fun Hc' => IH A p i _ ins rem r1 Hg Hi Hc' H1) as I1. apply I1. exact Hcu.
  - (* aligned *) destruct (lay_col _ _ i c Hg I Hi Hc) as [K K'].
    pose proof (cs_upd _ _ _ _ _ CS i i c Hc ltac:(unfold len in *; lia)) as Hcu. destruct Hg as [_ Hg].
    unfold aligned_full in HF. cbv zeta in HF. rewrite upd_mark'', K in HF.
    destruct (Z.eqb_spec (ctx_mark c) (loc_col (locof i))) as [He|He]; [|discriminate].
    apply md_aligned; auto. rewrite <- (upd_mark'' s c i). eapply IH; eauto.
  - (* indented *) destruct (lay_col _ _ i c Hg I Hi Hc) as [K K'].
    pose proof (cs_upd _ _ _ _ _ CS i i c Hc ltac:(unfold len in *; lia)) as Hcu. destruct Hg as [_ Hg].
    unfold indented_full in HF. cbv zeta in HF. rewrite upd_mark'', K in HF.
    destruct (Z.eqb_spec (ctx_mark c + delta) (loc_col (locof i))) as [He|He]; [|discriminate].
    apply obind_ret in HF as (r1 & H1 & HF). injection HF as HF.
    apply md_indented; auto. eapply (OM_set_ctx A p _ i ins rem _ r1); eauto.
    pose proof (fun Hc' => IH A p i _ ins rem r1 Hg Hi Hc' H1) as I1. apply I1. exact Hcu.
  - (* delay *) apply md_delay. eapply IH; eauto.
  - discriminate.
Qed.
End Mend.
