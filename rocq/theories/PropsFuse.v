(** Property C65: a parser over tokens and a parser over characters that is
    built alike (FuseSpec.v) have the same outcome. *)
From Verif Require Import Api ApiSpec Fuse DiagProofs PropsDiag.
From Coq Require Import Lia.

Section P.
Context {T T' : Type} {V V' : nat -> Type} (E : env T V) (E' : env T' V') {A A' : Type}.
Variable (g : gram T V A) (h : gram T' V' A').
Variable (s : list T) (s' : list T') (get : loc -> list T -> nat -> loc) (get' : loc -> list T' -> nat -> loc).
Variable (fmt fmt' : loc -> string) (locof locof' : nat -> loc) (mi mi' : Z).

(** What a user sees of the two runs (without recovery): related values, or one
    error each, with the same expected values, at a token and where this token
    begins - [place], or the same exception. *)
Definition same_outcome (R : A -> A' -> Prop) (place : nat -> nat) : Prop :=
  (forall n r v, parse E n g s false mi get fmt = Ret r -> unwrap r false = Returns v ->
     exists n' r' v', parse E' n' h s' false mi' get' fmt' = Ret r' /\ unwrap r' false = Returns v' /\ R v v') /\
  (forall n r errs, parse E n g s false mi get fmt = Ret r -> unwrap r false = Raises errs ->
     exists n' r' e e' p, parse E' n' h s' false mi' get' fmt' = Ret r' /\ unwrap r' false = Raises [e'] /\
       errs = [e] /\ p <= List.length s /\ ei_loc e = locof p /\ ei_loc e' = locof' (place p) /\
       ei_loc_str e' = fmt' (ei_loc e') /\ ei_expected e' = ei_expected e /\ ei_op e' = None) /\
  (forall n e, parse E n g s false mi get fmt = Raise e -> exists n', parse E' n' h s' false mi' get' fmt' = Raise e).
End P.

(** the two outcomes, up to the flag *)
Definition sees {T A A'} (s : list T) (at_ at_' : nat -> loc) (place : nat -> nat) (R : A -> A' -> Prop) (o : dres A) (o' : dres A') : Prop :=
  match o, o' with
  | DSucc v _ _, DSucc v' _ _ => R v v'
  | DFail _ l X, DFail _ l' X' => (exists p, p <= List.length s /\ l = at_ p /\ l' = at_' (place p)) /\ X' = X
  | DExn e, DExn e' => e' = e
  | _, _ => False
  end.
Lemma sees_api T T' V V' (E : env T V) (E' : env T' V') A A' (g : gram T V A) (h : gram T' V' A') s s' get get' fmt fmt' locof locof' mi mi' R place :
  wf_env E -> wf g -> cohere get s locof -> lay_ok E g s locof ->
  wf_env E' -> wf h -> cohere get' s' locof' -> lay_ok E' h s' locof' ->
  (forall o, diag E s locof A g 0 0 o -> exists o', diag E' s' locof' A' h 0 0 o' /\ sees s locof locof' place R o o') ->
  same_outcome E E' g h s s' get get' fmt fmt' locof locof' mi mi' R place.
Proof.
  intros HE Hg Hc Hl HE' Hg' Hc' Hl' K.
  destruct (C43_plain_diagnostics T V E A g s mi get fmt locof false HE Hg Hc Hl) as (D1 & D2 & D3).
  destruct (C43_plain_diagnostics T' V' E' A' h s' mi' get' fmt' locof' false HE' Hg' Hc' Hl') as (D1' & D2' & D3').
  split; [|split].
  - intros n r v H Hu. destruct (proj1 (D1 v)) as (j & X & D); [eauto|]. destruct (K _ D) as (o' & D' & O).
    destruct o' as [v' j' X'| |]; cbn in O; try contradiction.
    destruct (proj2 (D1' v')) as (n' & r' & H' & Hu'); [eauto|]. exists n', r', v'. auto.
  - intros n r errs H Hu. destruct (proj1 (D2 errs)) as (b & l & X & D & ->); [eauto|]. destruct (K _ D) as (o' & D' & O).
    destruct o' as [|b' l' X'|]; cbn in O; try contradiction. destruct O as ((p & Hp & -> & ->) & ->).
    destruct (proj2 (D2' [ErrorItem (locof' (place p)) (fmt' (locof' (place p))) X None])) as (n' & r' & H' & Hu'); [eauto 7|].
    exists n', r'. do 2 eexists. exists p. split; [exact H'|]. split; [exact Hu'|]. split; [reflexivity|]. cbn. repeat split; auto.
  - intros n e H. pose proof (proj1 (D3 e) (ex_intro _ n H)) as D. destruct (K _ D) as (o' & D' & O).
    destruct o' as [| |e']; cbn in O; try contradiction. subst e'. apply D3'. exact D'.
Qed.
Lemma outcomes_sees T (s : list T) at_ at_' place A A' (R : A -> A' -> Prop) o o' :
  outcomes s at_ at_' place R false 0 o o' -> sees s at_ at_' place R o o'.
Proof.
  destruct o as [v j X|b l X|e], o' as [v' j' X'|b' l' X'|e']; cbn; auto.
  - tauto.
  - intros (_ & (p & Hp & H1 & H2) & H). split; [exists p; split; [lia|auto]|]. symmetry. auto.
Qed.

(** Built alike, and the first token begins where the input does *)
Theorem C65_fused :
  forall T T' V V' (E : env T V) (E' : env T' V') A A' (R : A -> A' -> Prop) (g : gram T V A) (g' : gram T' V' A')
    s s' get get' fmt fmt' locof locof' mi mi' place link RV,
  wf_env E -> wf g -> cohere get s locof -> lay_ok E g s locof ->
  wf_env E' -> wf g' -> cohere get' s' locof' -> lay_ok E' g' s' locof' ->
  places s s' place -> place 0 = 0 ->
  alike_env E E' s s' locof locof' place link RV -> alike E E' s s' locof locof' place link RV false R g g' ->
  same_outcome E E' g g' s s' get get' fmt fmt' locof locof' mi mi' R place.
Proof.
  intros T T' V V' E E' A A' R g g' s s' get get' fmt fmt' locof locof' mi mi' place link RV HE Hg Hc Hl HE' Hg' Hc' Hl' HP H0 HA H.
  apply sees_api; auto. intros o D.
  destruct (alike_outcomes E E' s s' locof locof' place link RV HP HA A g 0 0 o D A' R false g' H) as (o' & D' & O); [lia|].
  rewrite H0 in D'. exists o'. split; [exact D'|]. apply outcomes_sees. exact O.
Qed.
Print Assumptions C65_fused.

(** The same after a part [skip] that reads what is before the first token *)
Theorem C65_fused_skip :
  forall T T' V V' (E : env T V) (E' : env T' V') A A' B (R : A -> A' -> Prop) (g : gram T V A) (skip : gram T' V' B) (g' : gram T' V' A')
    s s' get get' fmt fmt' locof locof' mi mi' place link RV x,
  wf_env E -> wf g -> cohere get s locof -> lay_ok E g s locof ->
  wf_env E' -> wf (seqr skip g') -> cohere get' s' locof' -> lay_ok E' (seqr skip g') s' locof' ->
  places s s' place -> diag E' s' locof' B skip 0 0 (DSucc x (place 0) []) ->
  alike_env E E' s s' locof locof' place link RV -> alike E E' s s' locof locof' place link RV false R g g' ->
  same_outcome E E' g (seqr skip g') s s' get get' fmt fmt' locof locof' mi mi' R place.
Proof.
  intros T T' V V' E E' A A' B R g skip g' s s' get get' fmt fmt' locof locof' mi mi' place link RV x HE Hg Hc Hl HE' Hg' Hc' Hl' HP H0 HA H.
  apply sees_api; auto. intros o D.
  destruct (alike_outcomes E E' s s' locof locof' place link RV HP HA A g 0 0 o D A' R false g' H) as (o' & D' & O); [lia|].
  exists (on_dvalue (fun v => v) (d_after 0 (place 0) [] o')). split.
  - exact (dg_seq E' s' locof' _ _ _ skip g' (fun _ r => r) 0 0 x (place 0) [] o' H0 D').
  - apply outcomes_sees in O. destruct o as [v j X|b l X|e], o' as [v' j' X'|b' l' X'|e']; cbn [sees] in O; try contradiction; try (destruct b'; exact O); exact O.
Qed.
Print Assumptions C65_fused_skip.
