(** Parsers that end with a token that must be there are prefix-free (for C53, C84). *)
From Verif Require Import ReplaySpec ExpSpec LL LangInv PropsLL PropsExp PropsTotal PropsTerm.

Section Shut.
Context {T : Type} {V : nat -> Type}.
Variable E : env T V.
Notation gram := (gram T V).

Lemma starts_mono B (q : gram B) (K K' : option T -> Prop) : (forall o, K' o -> K o) -> forall o, starts E q K' o -> starts E q K o.
Proof. intros H o [Ho|[H1 H2]]; [left|right]; auto. Qed.
(** larger FOLLOW sets *)
Lemma ll1_env (F F' : nat -> option T -> Prop) : (forall d o, F d o -> F' d o) -> forall A (g : gram A) (K : option T -> Prop), ll1 E F g K -> ll1 E F' g K.
Proof.
  intros HF A g. induction g; intros K HL; cbn in *; auto; try (intuition eauto; fail).
Qed.
(** what may follow may come from two sources *)
Lemma ll1_or (F : nat -> option T -> Prop) A (g : gram A) : forall (K K2 : option T -> Prop) (P : Prop),
  ll1 E F g K -> (P -> ll1 E F g K2) -> ll1 E F g (fun o => K o \/ (P /\ K2 o)).
Proof.
  assert (S : forall B (q : gram B) (K K2 : option T -> Prop) (P : Prop) o,
    starts E q (fun o => K o \/ (P /\ K2 o)) o -> starts E q K o \/ (P /\ starts E q K2 o)).
  { intros B q K K2 P o [Ho|[H1 [H2|[H2 H3]]]]; [left; left; auto|left; right; auto|right; split; [auto|right; auto]]. }
  induction g; intros K K2 P HL HP; cbn in *; auto.
  - intros o [H|[H1 H2]]; [auto|exact (HP H1 o H2)].
  - intros before w rest v Hv [H|[H1 H2]]; [|apply (HP H1 before w rest v Hv H2)]; auto.
  - destruct HL as (L1 & L2 & L3 & L4). split; [apply IHg1; [auto|intros p; apply (HP p)]|].
    split; [apply IHg2; [auto|intros p; apply (HP p)]|]. split; [auto|]. intros o H1 H2. apply S in H2 as [H2|[p H2]].
    + exact (L4 o H1 H2).
    + destruct (HP p) as (_ & _ & _ & Q). exact (Q o H1 H2).
  - destruct HL as (L1 & L2). split.
    + eapply ll1_mono; [|apply (IHg _ (fun o => exists w v, sentence E g w v /\ starts E (f v) K2 o) P L1); intros p; apply (proj1 (HP p))].
      intros o (w & v & H1 & H2). apply S in H2 as [H2|[p H2]]; [left|right; split; auto]; exists w, v; auto.
    + intros w v Hv. apply H; [eauto|]. intros p. exact (proj2 (HP p) w v Hv).
  - destruct HL as (L1 & L2). split; [|apply IHg2; [auto|intros p; apply (HP p)]].
    eapply ll1_mono; [|apply (IHg1 _ (starts E g2 K2) P L1); intros p; apply (HP p)]. apply S.
  - destruct HL as (L1 & L2 & L3). split; [apply IHg; [auto|intros p; apply (HP p)]|]. split; [auto|].
    intros o H1 [H2|[p H2]]; [exact (L3 o H1 H2)|]. destruct (HP p) as (_ & _ & Q). exact (Q o H1 H2).
  - destruct HL as (L1 & L2 & L3). split; [|split; [auto|]].
    + eapply ll1_mono; [|apply (IHg _ (fun o => first_is E g o \/ K2 o) P L1); intros p; apply (HP p)].
      intros o [H|[H|[p H]]]; [left; left; auto|left; right; auto|right; auto].
    + intros o H1 [H2|[p H2]]; [exact (L3 o H1 H2)|]. destruct (HP p) as (_ & _ & Q). exact (Q o H1 H2).
  - intros o [H|[p H]]; [auto|exact (HP p o H)].
Qed.

Variable Sh : nat -> Prop.
(** a parser that is shut and cannot be empty does not depend on what follows *)
Lemma shut_ll1 (F : nat -> option T -> Prop) A (p : gram A) : forall K : option T -> Prop, ll1 E F p K -> shut E Sh p -> ~ nullable E p ->
  everywhere E no_regexp_node p -> everywhere E (completable_node E) p ->
  (forall d o, Sh d -> occurs E (GDelay d) A p -> ~ nullable E (E d) -> F d o) ->
  forall K' : option T -> Prop, ll1 E F p K'.
Proof.
  induction p; intros K HL Hs Hn Hr Hc HF K'; cbn [ll1 shut] in *; auto; try contradiction;
    try (destruct (Hr _ _ (oc_refl E _)); fail).
  - eapply IHp; eauto using ev_fmap.
    + intros [v Hv]. destruct (Hc _ _ (oc_refl E _) [] v Hv) as [x Hx]. apply Hn. exists x. eapply la_fmap; eauto.
    + intros d o H1 H2. apply HF; auto. apply oc_fmap. auto.
  - destruct HL as (L1 & L2 & L3 & L4), Hs as [S1 S2].
    assert (N2 : ~ nullable E p2) by (intros [v Hv]; apply Hn; exists v; apply la_alt_r; auto).
    split; [|split; [|split; [auto|]]].
    + eapply IHp1; eauto using ev_alt_l. intros d o H1 H2. apply HF; auto. apply oc_alt_l. auto.
    + eapply IHp2; eauto using ev_alt_r. intros d o H1 H2. apply HF; auto. apply oc_alt_r. auto.
    + intros o H1 [H2|[H2 _]]; [|contradiction]. apply (L4 o H1). left. auto.
  - destruct HL as (L1 & L2), Hs as [S1 S2]. split.
    + eapply ll1_mono; [|exact L1]. intros o [H|[H _]]; [left; auto|contradiction].
    + eapply IHp2; eauto using ev_seq_r. intros d o H1 H2. apply HF; auto. apply oc_seq_r. auto.
  - exfalso. apply Hn. exists None. apply (la_maybe_none E).
  - eapply IHp; eauto using ev_label.
    + intros [v Hv]. apply Hn. exists v. apply la_label. auto.
    + intros d o H1 H2. apply HF; auto. apply oc_label. auto.
  - eapply IHp; eauto using ev_recover.
    + intros [v Hv]. apply Hn. exists v. apply la_recover. auto.
    + intros d o H1 H2. apply HF; auto. apply oc_recover. auto.
  - eapply IHp; eauto using ev_with.
    + intros [v Hv]. apply Hn. exists v. apply la_with. auto.
    + intros d o H1 H2. apply HF; auto. apply oc_with. auto.
  - eapply IHp; eauto using ev_withfn.
    + intros [v Hv]. apply Hn. exists v. apply la_withfn. auto.
    + intros d o H1 H2. apply HF; auto. apply oc_withfn. auto.
  - intros o _. apply HF; auto; [apply oc_refl|]. intros [v Hv]. apply Hn. exists v. apply la_delay. auto.
Qed.

(** parts of an LL(1) parser without [bind] are LL(1) *)
Lemma ll1_part (F : nat -> option T -> Prop) (HF : forall d, ll1 E F (E d) (F d)) B (q : gram B) A (g : gram A) :
  occurs E q A g -> everywhere E no_bind_node g -> forall K : option T -> Prop, ll1 E F g K -> exists K', ll1 E F q K'.
Proof.
  intros H. induction H; intros Hb K HL; cbn [ll1] in HL; try contradiction; try (destruct (Hb _ _ (oc_refl E _)); fail).
  1: eauto.
  all: match type of IHoccurs with everywhere _ _ ?p -> _ => assert (W : everywhere E no_bind_node p) by (intros ? ? Hxy; apply Hb; econstructor; exact Hxy) end;
    first [exact (IHoccurs W _ HL) | exact (IHoccurs W _ (proj1 HL)) | exact (IHoccurs W _ (proj2 HL)) |
           exact (IHoccurs W _ (proj1 (proj2 HL))) | exact (IHoccurs W _ (HF _))].
Qed.

Hypothesis HE : wf_env E.
Hypothesis HSh : forall d, Sh d -> shut E Sh (E d).
Lemma shut_clear_end A (g : gram A) : wf g -> everywhere E (completable_node E) g -> everywhere E (quiet_node E) g -> guarded E g ->
  LL1 E g -> everywhere E no_regexp_node g -> everywhere E no_bind_node g -> everywhere E (shut_items E Sh) g ->
  everywhere E (clear_end_node E) g.
Proof using HE HSh.
  intros Hg Hc Hq Hgd (F & HL & HF) Hr Hb Hs B q Ho. destruct q; try exact I. cbn [clear_end_node].
  set (P := fun d => Sh d /\ occurs E (GDelay d) A g /\ ~ nullable E (E d)).
  set (F' := fun d o => F d o \/ (P d /\ True)).
  assert (Mono : forall d o, F d o -> F' d o) by (intros d o H; left; auto).
  assert (HF' : forall d, ll1 E F' (E d) (F' d)).
  { intros d. apply (ll1_or F' _ (E d) (F d) (fun _ => True) (P d)); [eapply ll1_env; [exact Mono|apply HF]|].
    intros (P1 & P2 & P3). eapply shut_ll1; [eapply ll1_env; [exact Mono|apply HF]|auto|auto| | |].
    - intros B' q' Ho'. apply Hr. eapply PropsExp.occurs_trans; [exact P2|]. apply oc_delay. auto.
    - intros B' q' Ho'. apply Hc. eapply PropsExp.occurs_trans; [exact P2|]. apply oc_delay. auto.
    - intros d' o Q1 Q2 Q3. right. split; [|auto]. split; [auto|]. split; [|auto].
      eapply PropsExp.occurs_trans; [exact P2|]. apply oc_delay. auto. }
  assert (Sub : forall B' (q' : gram B'), occurs E q' _ q -> occurs E q' _ g).
  { intros B' q' Ho'. eapply PropsExp.occurs_trans; [exact Ho|]. apply oc_many. auto. }
  destruct (ll1_part F HF _ _ _ _ Ho Hb _ HL) as (K & L1 & L2 & L3).
  assert (Wq : wf q) by (pose proof (occurs_wf E _ _ _ _ HE Ho Hg) as [_ Q]; exact Q).
  apply (ll1_prefix_free T V E _ q F' HE Wq); auto.
  - intros B' q' Ho'. apply Hc. auto.
  - intros B' q' Ho'. apply Hq. auto.
  - intros d Ho'. apply Hgd. auto.
  - eapply shut_ll1; [eapply ll1_env; [exact Mono|exact L1]|exact (Hs _ _ Ho)|exact L2| | |].
    + intros B' q' Ho'. apply Hr. auto.
    + intros B' q' Ho'. apply Hc. auto.
    + intros d' o Q1 Q2 Q3. right. split; [|auto]. split; auto.
Qed.
End Shut.
