(** Parsers that are built alike have corresponding outcomes. *)
From Verif Require Export FuseSpec.
From Coq Require Import Lia.

Section Fuse.
Context {T T' : Type} {V V' : nat -> Type}.
Variable (E : env T V) (E' : env T' V').
Variable (s : list T) (s' : list T') (at_ at_' : nat -> loc).
Variable place : nat -> nat.
Variable link : nat -> nat -> Prop.
Variable RV : forall d d', V d -> V' d' -> Prop.
Hypothesis HP : places s s' place.
Hypothesis HE : alike_env E E' s s' at_ at_' place link RV.
Notation alike := (alike E E' s s' at_ at_' place link RV).
Notation outs := (outcomes s at_ at_' place).
Notation diag' := (diag E' s' at_').

Lemma place_ltb i j : i <= j <= List.length s -> Nat.ltb (place i) (place j) = Nat.ltb i j.
Proof using HP.
  intros H. destruct (Nat.ltb_spec i j) as [L|L].
  - apply Nat.ltb_lt. apply HP. lia.
  - replace j with i by lia. apply Nat.ltb_irrefl.
Qed.
Lemma place_end i : i < List.length s -> place i <> List.length s'.
Proof using HP. intros H. rewrite <- (proj2 HP). assert (place i < place (List.length s)) by (apply HP; lia). lia. Qed.

Lemma outs_after A A' B B' (Q : A -> A' -> Prop) (R : B -> B' -> Prop) loose i v v' j j' X X' o o' :
  outs Q loose i (DSucc v j X) (DSucc v' j' X') -> outs R false j o o' ->
  outs R loose i (d_after i j X o) (d_after (place i) j' X' o').
Proof using HP.
  intros (H1 & H2 & -> & H3) H. destruct o as [w k Y|b l Y|e], o' as [w' k' Y'|b' l' Y'|e']; cbn [outcomes] in H; try contradiction.
  - destruct H as (K1 & K2 & -> & K3). specialize (K3 (or_introl eq_refl)) as <-. cbn [d_after outcomes].
    rewrite (place_ltb j k) by lia. split; [auto|]. split; [lia|]. split; [auto|]. intros K. destruct (Nat.ltb_spec j k); [auto|].
    rewrite H3; [auto|]. destruct K; [auto|right; lia].
  - destruct H as (<- & (p & K1 & K2 & K3) & K4). specialize (K4 (or_introl eq_refl)) as <-.
    assert (P : exists p, i <= p <= List.length s /\ l = at_ p /\ l' = at_' (place p)) by (exists p; split; [lia|auto]).
    destruct b; cbn [d_after outcomes].
    + auto.
    + rewrite (place_ltb i j) by lia. split; [auto|]. split; [exact P|]. intros K. rewrite H3; [auto|].
      destruct K as [K|K]; [auto|]. right. apply Nat.ltb_lt. exact K.
  - exact H.
Qed.
Lemma outs_else A A' (R : A -> A' -> Prop) loose i l l' X X' o o' :
  outs R loose i (DFail false l X) (DFail false l' X') -> outs R loose i o o' ->
  outs R loose i (d_else i l X o) (d_else (place i) l' X' o').
Proof using HP.
  intros (_ & H2 & H3) H. destruct o as [w k Y|b m Y|e], o' as [w' k' Y'|b' m' Y'|e']; cbn [outcomes] in H; try contradiction.
  - destruct H as (K1 & K2 & -> & K3). cbn [d_else outcomes]. rewrite (place_ltb i k) by lia.
    split; [auto|]. split; [lia|]. split; [auto|]. intros K. destruct (Nat.ltb_spec i k) as [L|L]; [auto|].
    destruct K as [K|K]; [|lia]. rewrite H3, K3 by auto. reflexivity.
  - destruct H as (<- & K1 & K2). destruct b; cbn [d_else outcomes]; [auto|]. split; [auto|]. split; [exact H2|].
    intros [K|K]; [|discriminate]. rewrite H3, K2 by auto. reflexivity.
  - exact H.
Qed.
Lemma outs_label A A' (R : A -> A' -> Prop) loose i x o o' :
  outs R true i o o' -> outs R loose i (d_label i x o) (d_label (place i) x o').
Proof using HP.
  intros H. destruct o as [w k Y|b m Y|e], o' as [w' k' Y'|b' m' Y'|e']; cbn [outcomes] in H; try contradiction.
  - destruct H as (K1 & K2 & -> & K3). cbn [d_label outcomes]. rewrite (place_ltb i k) by lia.
    split; [auto|]. split; [lia|]. split; [auto|]. intros _. destruct (Nat.ltb_spec i k); auto.
  - destruct H as (<- & K1 & K2). destruct b; cbn [d_label outcomes]; auto.
  - exact H.
Qed.
Lemma outs_value A A' B B' (R : A -> A' -> Prop) (Q : B -> B' -> Prop) loose i o o' f f' :
  (forall v v', R v v' -> Q (f v) (f' v')) -> outs R loose i o o' -> outs Q loose i (on_dvalue f o) (on_dvalue f' o').
Proof using.
  intros H K. destruct o as [w k Y|b m Y|e], o' as [w' k' Y'|b' m' Y'|e']; cbn [outcomes on_dvalue] in *; try contradiction; auto.
  destruct K as [K1 K2]. split; auto.
Qed.
Lemma outs_rel A A' (R Q : A -> A' -> Prop) loose i o o' :
  (forall v v', R v v' -> Q v v') -> outs R loose i o o' -> outs Q loose i o o'.
Proof using.
  intros H K. destruct o as [w k Y|b m Y|e], o' as [w' k' Y'|b' m' Y'|e']; cbn [outcomes] in *; try contradiction; auto.
  destruct K as [K1 K2]. split; auto.
Qed.
Lemma outs_loosen A A' (R : A -> A' -> Prop) loose i o o' : outs R false i o o' -> outs R loose i o o'.
Proof using.
  destruct o as [w k Y|b m Y|e], o' as [w' k' Y'|b' m' Y'|e']; cbn [outcomes]; auto.
  - intros (H1 & H2 & H3 & H4). repeat split; auto; lia.
  - intros (H1 & H2 & H3). split; auto.
Qed.

Ltac here p := exists p; split; [lia|split; reflexivity].
Theorem alike_outcomes A (g : gram T V A) m i o : diag E s at_ A g m i o ->
  forall A' (R : A -> A' -> Prop) loose (g' : gram T' V' A'), alike loose R g g' -> i <= List.length s ->
  exists o', diag' A' g' m (place i) o' /\ outs R loose i o o'.
Proof using HP HE.
  intros H. induction H; intros A'' R loose g' HA Hi;
    (simpl in HA; destruct HA as [HA|HA];
     [eapply HA; [exact Hi|]; econstructor; eassumption | destruct g'; try contradiction]).
  - (* pure *) eexists. split; [apply dg_pure|]. cbn [outcomes]. split; [auto|]. split; [lia|auto].
  - (* purefn *) rewrite H in HA. unfold calls in HA. destruct (f0 tt) as [v'| |] eqn:F; try contradiction.
    eexists. split; [apply dg_purefn; exact F|]. cbn [outcomes]. split; [auto|]. split; [lia|auto].
  - rewrite H in HA. unfold calls in HA. destruct (f0 tt) as [|e'|] eqn:F; try contradiction. subst e'.
    eexists. split; [apply dg_purefn_exn; exact F|reflexivity].
  - (* unexpected *) subst. eexists. split; [apply dg_unexpected|]. cbn [outcomes]. split; [auto|]. split; [here i|auto].
  - (* eof *) destruct HP as [_ Q]. rewrite Q. eexists. split; [apply dg_eof|]. cbn [outcomes]. split; [auto|]. split; [lia|auto].
  - eexists. split; [apply dg_eof_fail; apply place_end; lia|]. cbn [outcomes]. split; [auto|]. split; [here i|auto].
  - (* fmap *) destruct HA as (Q & HA & HF). destruct (IHdiag _ _ _ _ HA Hi) as (o' & D & O).
    destruct o' as [v' j' X'| |]; cbn [outcomes] in O; try contradiction. destruct O as (O1 & O2 & O3 & O4).
    specialize (HF _ _ O1). rewrite H0 in HF. unfold calls in HF. destruct (f0 v') as [w'| |] eqn:F; try contradiction.
    eexists. split; [eapply dg_fmap; eauto|]. cbn [outcomes]. auto.
  - destruct HA as (Q & HA & HF). destruct (IHdiag _ _ _ _ HA Hi) as (o' & D & O).
    destruct o' as [v' j' X'| |]; cbn [outcomes] in O; try contradiction. destruct O as (O1 & O2 & O3 & O4).
    specialize (HF _ _ O1). rewrite H0 in HF. unfold calls in HF. destruct (f0 v') as [|e'|] eqn:F; try contradiction. subst e'.
    eexists. split; [eapply dg_fmap_raise; eauto|]. reflexivity.
  - destruct HA as (Q & HA & HF). destruct (IHdiag _ _ _ _ HA Hi) as (o' & D & O).
    destruct o' as [|b' l' X'|]; cbn [outcomes] in O; try contradiction.
    eexists. split; [eapply dg_fmap_fail; eauto|]. exact O.
  - destruct HA as (Q & HA & HF). destruct (IHdiag _ _ _ _ HA Hi) as (o' & D & O).
    destruct o' as [| |e']; cbn [outcomes] in O; try contradiction.
    eexists. split; [eapply dg_fmap_exn; eauto|]. exact O.
  - (* alt *) destruct HA as [HA HB]. destruct (IHdiag _ _ _ _ HA Hi) as (o' & D & O).
    destruct o' as [v' j' X'| |]; cbn [outcomes] in O; try contradiction. eexists. split; [apply dg_alt_l; eauto|exact O].
  - destruct HA as [HA HB]. destruct (IHdiag _ _ _ _ HA Hi) as (o' & D & O).
    destruct o' as [|b' l' X'|]; cbn [outcomes] in O; try contradiction. pose proof (proj1 O) as <-. eexists. split; [apply dg_alt_fail; eauto|exact O].
  - destruct HA as [HA HB]. destruct (IHdiag _ _ _ _ HA Hi) as (o' & D & O).
    destruct o' as [| |e']; cbn [outcomes] in O; try contradiction. eexists. split; [apply dg_alt_exn; eauto|exact O].
  - destruct HA as [HA HB]. destruct (IHdiag1 _ _ _ _ HA Hi) as (o' & D & O).
    destruct o' as [|b' l' X'|]; cbn [outcomes] in O; try contradiction. pose proof (proj1 O) as <-.
    destruct (IHdiag2 _ _ _ _ HB Hi) as (o2 & D2 & O2). eexists. split; [eapply dg_alt_r; eauto|]. apply outs_else; [exact O|exact O2].
  - (* bind *) destruct HA as (Q & HA & HF). destruct (IHdiag1 _ _ _ _ HA Hi) as (o' & D & O).
    destruct o' as [v' j' X'| |]; cbn [outcomes] in O; try contradiction. pose proof O as (O1 & O2 & -> & _).
    destruct (IHdiag2 _ _ _ _ (HF _ _ O1)) as (o2 & D2 & K2); [lia|].
    eexists. split; [eapply dg_bind; eauto|]. eapply outs_after; [exact O|exact K2].
  - destruct HA as (Q & HA & HF). destruct (IHdiag _ _ _ _ HA Hi) as (o' & D & O).
    destruct o' as [|b' l' X'|]; cbn [outcomes] in O; try contradiction.
    eexists. split; [eapply dg_bind_fail; eauto|]. exact O.
  - destruct HA as (Q & HA & HF). destruct (IHdiag _ _ _ _ HA Hi) as (o' & D & O).
    destruct o' as [| |e']; cbn [outcomes] in O; try contradiction.
    eexists. split; [eapply dg_bind_exn; eauto|]. exact O.
  - (* seq *) destruct HA as (Q & S & HA & HB & HF). destruct (IHdiag1 _ _ _ _ HA Hi) as (o' & D & O).
    destruct o' as [v' j' X'| |]; cbn [outcomes] in O; try contradiction. pose proof O as (O1 & O2 & -> & _).
    destruct (IHdiag2 _ _ _ _ HB) as (o2 & D2 & K2); [lia|].
    eexists. split; [eapply dg_seq; eauto|]. eapply outs_value; [|eapply outs_after; [exact O|exact K2]].
    intros. apply HF; auto.
  - destruct HA as (Q & S & HA & HB & HF). destruct (IHdiag _ _ _ _ HA Hi) as (o' & D & O).
    destruct o' as [|b' l' X'|]; cbn [outcomes] in O; try contradiction.
    eexists. split; [eapply dg_seq_fail; eauto|]. exact O.
  - destruct HA as (Q & S & HA & HB & HF). destruct (IHdiag _ _ _ _ HA Hi) as (o' & D & O).
    destruct o' as [| |e']; cbn [outcomes] in O; try contradiction.
    eexists. split; [eapply dg_seq_exn; eauto|]. exact O.
  - (* maybe *) destruct HA as (Q & HA & H0 & HF). destruct (IHdiag _ _ _ _ HA Hi) as (o' & D & O).
    destruct o' as [v' j' X'| |]; cbn [outcomes] in O; try contradiction.
    eexists. split; [eapply dg_maybe; eauto|]. cbn [outcomes]. destruct O as [O1 O2]. auto.
  - destruct HA as (Q & HA & H0 & HF). destruct (IHdiag _ _ _ _ HA Hi) as (o' & D & O).
    destruct o' as [|b' l' X'|]; cbn [outcomes] in O; try contradiction. pose proof O as (<- & _ & O2).
    eexists. split; [eapply dg_maybe_none; eauto|]. cbn [outcomes]. split; [auto|]. split; [lia|]. split; [auto|].
    intros [K|K]; [auto|lia].
  - destruct HA as (Q & HA & H0 & HF). destruct (IHdiag _ _ _ _ HA Hi) as (o' & D & O).
    destruct o' as [|b' l' X'|]; cbn [outcomes] in O; try contradiction. pose proof O as (<- & _ & O2).
    eexists. split; [eapply dg_maybe_fail; eauto|]. exact O.
  - destruct HA as (Q & HA & H0 & HF). destruct (IHdiag _ _ _ _ HA Hi) as (o' & D & O).
    destruct o' as [| |e']; cbn [outcomes] in O; try contradiction.
    eexists. split; [eapply dg_maybe_exn; eauto|]. exact O.
  - (* many *) pose proof HA as (Q & HQ & HF). destruct (IHdiag1 _ _ _ _ HQ Hi) as (o' & D & O).
    destruct o' as [v' j' X'| |]; cbn [outcomes] in O; try contradiction. destruct O as (O1 & O2 & -> & O3).
    destruct (IHdiag2 _ (Forall2 Q) false (GMany g')) as (o2 & D2 & K2); [simpl; right; exists Q; auto|lia|].
    destruct o2 as [l' k' Y'| |]; cbn [outcomes] in K2; try contradiction. destruct K2 as (K1 & K2 & -> & K3).
    assert (L : place i < place j) by (apply HP; lia).
    eexists. split; [eapply dg_many_more; eauto|]. cbn [outcomes]. split; [apply HF; constructor; auto|]. split; [lia|]. split; [auto|].
    intros _. apply K3. auto.
  - pose proof HA as (Q & HQ & HF). destruct (IHdiag1 _ _ _ _ HQ Hi) as (o' & D & O).
    destruct o' as [v' j' X'| |]; cbn [outcomes] in O; try contradiction. destruct O as (O1 & O2 & -> & O3).
    destruct (IHdiag2 _ (Forall2 Q) false (GMany g')) as (o2 & D2 & K2); [simpl; right; exists Q; auto|lia|].
    destruct o2 as [|b' l' Y'|]; cbn [outcomes] in K2; try contradiction. destruct K2 as (<- & (p0 & K1 & K4) & K3).
    assert (L : place i < place j) by (apply HP; lia).
    eexists. split; [eapply dg_many_more_fail; eauto|]. cbn [outcomes]. split; [auto|]. split; [exists p0; split; [lia|auto]|]. intros _. apply K3. auto.
  - pose proof HA as (Q & HQ & HF). destruct (IHdiag1 _ _ _ _ HQ Hi) as (o' & D & O).
    destruct o' as [v' j' X'| |]; cbn [outcomes] in O; try contradiction. destruct O as (O1 & O2 & -> & O3).
    destruct (IHdiag2 _ (Forall2 Q) false (GMany g')) as (o2 & D2 & K2); [simpl; right; exists Q; auto|lia|].
    destruct o2 as [| |e']; cbn [outcomes] in K2; try contradiction. assert (L : place i < place j) by (apply HP; lia).
    eexists. split; [eapply dg_many_more_exn; eauto|]. exact K2.
  - destruct HA as (Q & HQ & HF). destruct (IHdiag _ _ _ _ HQ Hi) as (o' & D & O).
    destruct o' as [v' j' X'| |]; cbn [outcomes] in O; try contradiction. destruct O as (O1 & O2 & -> & O3).
    eexists. split; [eapply dg_many_empty; eauto|]. reflexivity.
  - destruct HA as (Q & HQ & HF). destruct (IHdiag _ _ _ _ HQ Hi) as (o' & D & O).
    destruct o' as [|b' l' X'|]; cbn [outcomes] in O; try contradiction. destruct O as (<- & O1 & O2).
    eexists. split; [eapply dg_many_stop; eauto|]. cbn [outcomes]. split; [auto|]. split; [lia|]. split; auto.
  - destruct HA as (Q & HQ & HF). destruct (IHdiag _ _ _ _ HQ Hi) as (o' & D & O).
    destruct o' as [|b' l' X'|]; cbn [outcomes] in O; try contradiction. destruct O as (<- & O1 & O2).
    eexists. split; [eapply dg_many_fail; eauto|]. cbn [outcomes]. auto.
  - destruct HA as (Q & HQ & HF). destruct (IHdiag _ _ _ _ HQ Hi) as (o' & D & O).
    destruct o' as [| |e']; cbn [outcomes] in O; try contradiction.
    eexists. split; [eapply dg_many_exn; eauto|]. exact O.
  - (* attempt *) destruct (IHdiag _ _ _ _ HA Hi) as (o' & D & O).
    destruct o' as [v' j' X'| |]; cbn [outcomes] in O; try contradiction.
    eexists. split; [eapply dg_attempt; eauto|]. apply outs_loosen. exact O.
  - destruct (IHdiag _ _ _ _ HA Hi) as (o' & D & O).
    destruct o' as [|b' l' X'|]; cbn [outcomes] in O; try contradiction. destruct O as (<- & O1 & O2).
    eexists. split; [eapply dg_attempt_fail; eauto|]. cbn [outcomes]. auto.
  - destruct (IHdiag _ _ _ _ HA Hi) as (o' & D & O).
    destruct o' as [| |e']; cbn [outcomes] in O; try contradiction.
    eexists. split; [eapply dg_attempt_exn; eauto|]. exact O.
  - (* label *) destruct HA as [<- HA]. destruct (IHdiag _ _ _ _ HA Hi) as (o' & D & O).
    eexists. split; [apply dg_label; exact D|]. apply outs_label. exact O.
  - destruct (IHdiag _ _ _ _ HA Hi) as (o' & D & O). eexists. split; [apply dg_recover; exact D|exact O].
  - destruct (IHdiag _ _ _ _ HA Hi) as (o' & D & O). eexists. split; [apply dg_with; exact D|exact O].
  - destruct (IHdiag _ _ _ _ HA Hi) as (o' & D & O). eexists. split; [apply dg_withfn; exact D|exact O].
  - (* delay *) destruct HA as [HL HR]. destruct (IHdiag _ _ _ _ (HE _ _ HL) Hi) as (o' & D & O).
    eexists. split; [apply dg_delay; exact D|]. eapply outs_rel; [exact HR|]. apply outs_loosen. exact O.
  - eexists. split; [apply dg_undef|reflexivity].
Qed.
End Fuse.
