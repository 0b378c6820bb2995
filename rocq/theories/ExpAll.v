(** Expected values: completeness for LL(1) parsers (C53). *)
From Verif Require Export Exp.

Section Complete.
Context {T : Type} {V : nat -> Type}.
Variable E : env T V.
Notation gram := (gram T V).
Hypothesis HE : wf_env E.
Notation compl := (everywhere E (completable_node E)).
Variable F : nat -> option T -> Prop.
Hypothesis HF : forall d, ll1 E F (E d) (F d).

Definition nice_node B (q : gram B) : Prop :=
  completable_node E B q /\ one_token_node B q /\ ~ is_layout B q /\ labelled_node E B q /\ clear_end_node E B q.
Notation nice := (everywhere E nice_node).
Lemma ev_impl (P Q : forall B, gram B -> Prop) A (g : gram A) :
  (forall B q, P B q -> Q B q) -> everywhere E P g -> everywhere E Q g.
Proof. intros H K B q Ho. apply H, K, Ho. Qed.
Lemma nice_compl A (g : gram A) : nice g -> compl g.
Proof. apply ev_impl. intros B q H. apply H. Qed.
Lemma nice_local A (g : gram A) : nice g -> local E g.
Proof.
  intros H. split; revert H; apply ev_impl; intros B q H; [|apply H].
  destruct H as (_ & H & _). destruct q; simpl in *; tauto.
Qed.

Definition is_eof B (q : gram B) : Prop := match q with GEof => True | _ => False end.
Notation eof_free := (everywhere E (fun B q => ~ is_eof B q)).
(** it matters whether the input goes on *)
Definition goes_on {A} (K : option T -> Prop) (g : gram A) : Prop := (exists t, K (Some t)) \/ eof_free g.

(** *** Facts about words *)
Lemma slice_length (s : list T) i j : i <= j <= List.length s -> List.length (slice s i j) = j - i.
Proof. intros H. unfold slice. rewrite firstn_length, skipn_length. lia. Qed.
Lemma slice_skipn (s : list T) i j : i <= j -> skipn i s = slice s i j ++ skipn j s.
Proof.
  intros H. unfold slice. rewrite <- (firstn_skipn (j - i) (skipn i s)) at 1. rewrite skipn_skipn.
  replace (i + (j - i)) with j by lia. reflexivity.
Qed.
Lemma firstn_slice (s : list T) i j : i <= j -> firstn i s ++ slice s i j = firstn j s.
Proof.
  intros H. unfold slice. revert s j H. induction i as [|i IH]; intros s j H.
  - simpl. rewrite Nat.sub_0_r. reflexivity.
  - destruct j as [|j]; [lia|]. destruct s as [|x s]; simpl.
    + rewrite firstn_nil. reflexivity.
    + f_equal. apply IH. lia.
Qed.
Lemma nth_firstn (s : list T) j k : k < j -> nth_error (firstn j s) k = nth_error s k.
Proof.
  revert s k. induction j as [|j IH]; intros [|x s] k H; simpl; auto; try lia.
  destruct k; simpl; auto. apply IH. lia.
Qed.
Lemma some_rest (K : option T -> Prop) : (exists o, K o) -> exists rest, K (hd_error rest).
Proof. intros [[t|] H]; [exists [t]|exists []]; exact H. Qed.

(** *** What an LL(1) parser reads *)
Lemma maximal s at_ A (g : gram A) m i v j X K x w u :
  diag E s at_ A g m i (DSucc v j X) -> wf g -> i <= List.length s -> nice g ->
  ll1 E F g K -> (exists o, K o) -> nth_error s j = Some x -> sentence E g (slice s i j ++ x :: w) u -> False.
Proof.
  intros H Hw Hi Hc HL HK Hx Hs. apply some_rest in HK as [rest HK].
  pose proof (diag_valid E HE _ _ _ _ _ _ _ H Hw Hi (nice_compl _ _ Hc)) as (V1 & _ & V3).
  set (s2 := firstn j s ++ x :: w ++ rest).
  assert (Hj : j < List.length s) by (apply nth_error_Some; congruence).
  assert (Hd : diag E s2 at_ A g m i (DSucc v j X)).
  { apply V3; [apply nice_local; auto|]. intros k Hk. unfold s2. destruct (Nat.eq_dec k j) as [->|Hkj].
    - rewrite nth_error_app2; rewrite firstn_length, Nat.min_l by lia; [|lia]. rewrite Nat.sub_diag. auto.
    - rewrite nth_error_app1 by (rewrite firstn_length; lia). apply nth_firstn. lia. }
  assert (L2 : i <= List.length s2) by (unfold s2; rewrite app_length, firstn_length; lia).
  destruct (ll1_reads E HE F HF _ _ _ _ _ _ _ Hd Hw L2 (nice_compl _ _ Hc) K (slice s i j ++ x :: w) rest u HL) as [[Y HY]|[e HY]]; auto; try discriminate.
  - unfold s2. rewrite <- (firstn_slice s i j) by lia. rewrite <- app_assoc, skipn_app, firstn_length, Nat.min_l by lia.
    rewrite Nat.sub_diag, skipn_all2 by (rewrite firstn_length; lia). simpl. rewrite <- app_assoc. reflexivity.
  - injection HY as _ HY _. rewrite app_length, slice_length in HY by lia. simpl in HY. lia.
Qed.

(** the word of the first part, when the first part was read *)
Lemma cut s at_ A (p : gram A) m i v j X K r w1 w2 z v1 :
  diag E s at_ A p m i (DSucc v j X) -> wf p -> i <= List.length s -> nice p -> ll1 E F p K -> (exists o, K o) ->
  j <= r <= List.length s -> sentence E p w1 v1 -> w1 ++ w2 = slice s i r ++ z ->
  (forall t w, w2 = t :: w -> K (Some t)) ->
  (w1 = slice s i j /\ w2 = slice s j r ++ z) \/
  (j = r /\ exists t l, w1 = slice s i j ++ t :: l /\ z = t :: l ++ w2).
Proof.
  intros H Hw Hi Hc HL HK Hr Hs Hz HA.
  pose proof (diag_valid E HE _ _ _ _ _ _ _ H Hw Hi (nice_compl _ _ Hc)) as (V1 & V2 & _).
  rewrite <- (slice_app s i j r), <- app_assoc in Hz by lia.
  apply app_eq_app in Hz as [l [[-> Hl]|[Hl ->]]]; destruct l as [|x l].
  - left. rewrite app_nil_r. auto.
  - destruct (Nat.eq_dec j r) as [->|Hjr].
    + right. split; [auto|]. rewrite slice_nil in Hl. exists x, l. auto.
    + exfalso. destruct (slice_head s j r) as (t & w & Hw' & Ht); [lia|lia|].
      rewrite Hw' in Hl. injection Hl as -> _.
      eapply (maximal s at_ A p m i v j X K x l v1); eauto.
  - left. rewrite app_nil_r in Hl. auto.
  - exfalso. specialize (HA x _ eq_refl).
    assert (Hk : skipn i s = w1 ++ (x :: l) ++ skipn j s).
    { rewrite (slice_skipn s i j), Hl, <- app_assoc by lia. reflexivity. }
    destruct (ll1_reads E HE F HF _ _ _ _ _ _ _ H Hw Hi (nice_compl _ _ Hc) K w1 ((x :: l) ++ skipn j s) v1 HL Hk HA Hs) as [[Y HY]|[e HY]]; [|discriminate].
    injection HY as _ HY _. apply (f_equal (@List.length T)) in Hl. rewrite slice_length, app_length in Hl by lia.
    simpl in Hl. lia.
Qed.
(** ... and when it failed *)
Lemma cut_fail s at_ A (p : gram A) m i b l X K r w1 w2 z v1 :
  diag E s at_ A p m i (DFail b l X) -> wf p -> i <= List.length s -> nice p -> ll1 E F p K ->
  i <= r <= List.length s -> sentence E p w1 v1 -> w1 ++ w2 = slice s i r ++ z ->
  (forall t w, w2 = t :: w -> K (Some t)) ->
  exists l, w1 = slice s i r ++ l /\ z = l ++ w2.
Proof.
  intros H Hw Hi Hc HL Hr Hs Hz HA.
  apply app_eq_app in Hz as [y [[-> Hl]|[Hl ->]]]; [eauto|].
  destruct y as [|x y]; [exists []; rewrite app_nil_r in *; auto|]. exfalso.
  specialize (HA x _ eq_refl).
  assert (Hk : skipn i s = w1 ++ (x :: y) ++ skipn r s).
  { rewrite (slice_skipn s i r), Hl, <- app_assoc by lia. reflexivity. }
  destruct (ll1_reads E HE F HF _ _ _ _ _ _ _ H Hw Hi (nice_compl _ _ Hc) K w1 ((x :: y) ++ skipn r s) v1 HL Hk HA Hs) as [[Y HY]|[e HY]]; discriminate.
Qed.

(** *** The invariant *)
Definition thorough (s : list T) (at_ : nat -> loc) {A} (g : gram A) (K : option T -> Prop) (i : nat) (o : dres A) : Prop :=
  match o with
  | DSucc v j X => (forall v', sentence E g (slice s i j) v' -> v' = v) /\
      forall t, viable E g (slice s i j ++ [t]) -> mentions E g X t
  | DFail b l X => exists p, l = at_ p /\ i <= p <= List.length s /\ (b = false -> p = i) /\ (b = true -> i < p) /\
      (b = true \/ ~ anonymous A g -> forall t, viable E g (slice s i p ++ [t]) -> mentions E g X t) /\
      (goes_on K g -> forall v, ~ sentence E g (slice s i p) v)
  | DExn _ => True
  end.

Lemma mentions_sub A B (p : gram A) (g : gram B) X X' t :
  (forall C (q : gram C), occurs E q A p -> occurs E q B g) -> (forall l, In l X -> In l X') ->
  mentions E p X t -> mentions E g X' t.
Proof. intros H1 H2 (l & C & q & K1 & K2 & K3 & K4). exists l, C, q. auto 10. Qed.
Lemma mentions_here A (g : gram A) l t : called A g l -> first E g t -> mentions E g [l] t.
Proof. intros H1 H2. exists l, A, g. split; [left; auto|]. split; [constructor|auto]. Qed.
Lemma viable_first A (g : gram A) t : viable E g [t] -> first E g t.
Proof. intros (w & v & H). exists w, v. exact H. Qed.
Lemma first_viable A (g : gram A) t w v : sentence E g (t :: w) v -> viable E g [t].
Proof. intros H. exists w, v. exact H. Qed.
Lemma viable_app A (g : gram A) w t w' v : sentence E g (w ++ t :: w') v -> viable E g (w ++ [t]).
Proof. intros H. exists w', v. rewrite <- app_assoc. exact H. Qed.
Lemma viable_open A (g : gram A) w t : viable E g (w ++ [t]) -> exists w' v, sentence E g (w ++ t :: w') v.
Proof. intros (w' & v & H). rewrite <- app_assoc in H. eauto. Qed.
(** the first token of what was read *)
Lemma read_first A (g : gram A) s i r w v : i < r <= List.length s -> sentence E g (slice s i r ++ w) v ->
  exists x, nth_error s i = Some x /\ first E g x.
Proof.
  intros Hr H. destruct (slice_head s i r) as (x & y & Hs & Hx); [lia|lia|]. rewrite Hs in H.
  exists x. split; [auto|]. exists (y ++ w), v. exact H.
Qed.
Lemma many_first A (p : gram A) t w l : ~ nullable E p -> sentence E (GMany p) (t :: w) l -> first E p t.
Proof.
  intros Hn H. apply sent_inv in H. destruct H as [[H _]|(a & b & x & y & S1 & _ & S2 & _)]; [discriminate|].
  destruct a as [|t' a]; [destruct Hn; exists x; exact S2|]. injection S1 as -> _. exists a, x. exact S2.
Qed.

(** sequencing *)
Lemma thorough_after s at_ A B C (p : gram A) (q : gram B) (g : gram C) (h : B -> C) K Kp m i v j X o :
  diag E s at_ A p m i (DSucc v j X) -> diag E s at_ B q m j o ->
  wf p -> wf q -> i <= List.length s -> nice p -> nice q -> ~ anonymous _ q ->
  ll1 E F p Kp -> (exists o, Kp o) ->
  (forall D (r : gram D), occurs E r A p -> occurs E r C g) ->
  (forall D (r : gram D), occurs E r B q -> occurs E r C g) ->
  (* the sentences of [g] *)
  (forall w u, sentence E g w u -> exists w1 w2 v1, w = w1 ++ w2 /\ sentence E p w1 v1 /\
     (forall t w, w2 = t :: w -> Kp (Some t)) /\
     (v1 = v -> exists v2, sentence E q w2 v2 /\ u = h v2)) ->
  (goes_on K g -> goes_on K q) ->
  thorough s at_ p Kp i (DSucc v j X) -> thorough s at_ q K j o -> thorough s at_ g K i (on_dvalue h (d_after i j X o)).
Proof.
  intros Hp Hq Wp Wq Hi Np Nq Aq HL HK Op Oq Hg Hgo [Pu Pm] KO.
  pose proof (diag_valid E HE _ _ _ _ _ _ _ Hp Wp Hi (nice_compl _ _ Np)) as (V1 & V2 & _).
  assert (Cut : forall r w z u, j <= r <= List.length s -> w = slice s i r ++ z -> sentence E g w u ->
     (exists v2, sentence E q (slice s j r ++ z) v2 /\ u = h v2) \/
     (j = r /\ exists t l, z = t :: l /\ viable E p (slice s i j ++ [t]))).
  { intros r w z u Hr -> Hs. destruct (Hg _ _ Hs) as (w1 & w2 & v1 & G1 & G2 & G3 & G4). symmetry in G1.
    destruct (cut _ _ _ _ _ _ _ _ _ _ _ _ _ _ _ Hp Wp Hi Np HL HK Hr G2 G1 G3) as [[-> ->]|(-> & t & l & -> & ->)].
    - left. apply G4. apply Pu. exact G2.
    - right. split; [auto|]. exists t, (l ++ w2). split; [auto|]. eapply viable_app; eauto. }
  destruct o as [v' k Y|b l Y|e]; [| |exact I].
  - destruct KO as [Qu Qm]. pose proof (diag_valid E HE _ _ _ _ _ _ _ Hq Wq (proj2 V1) (nice_compl _ _ Nq)) as (V3 & _).
    cbn [on_dvalue d_after thorough]. split.
    + intros u Hu. destruct (Cut k _ [] u V3 (eq_sym (app_nil_r _)) Hu) as [(v2 & S & ->)|(_ & t & l & Hz & _)]; [|discriminate].
      rewrite app_nil_r in S. f_equal. auto.
    + intros t Ht. apply viable_open in Ht as (w' & u & Hu).
      destruct (Cut k _ (t :: w') u V3 eq_refl Hu) as [(v2 & S & _)|(-> & t' & l & Hz & S)].
      * apply viable_app in S. apply Qm in S. revert S. apply mentions_sub; auto.
        intros l Hl. destruct (Nat.ltb j k); [auto|]. apply in_app_iff; auto.
      * injection Hz as <- <-. apply Pm in S. revert S. apply mentions_sub; auto.
        intros l Hl. rewrite Nat.ltb_irrefl. apply in_app_iff; auto.
  - destruct KO as (r & -> & K1 & K2 & K3 & K4 & K5).
    assert (M : forall t, viable E g (slice s i r ++ [t]) -> mentions E g (if b then Y else X ++ Y) t).
    { intros t Ht. apply viable_open in Ht as (w' & u & Hu).
      destruct (Cut r _ (t :: w') u K1 eq_refl Hu) as [(v2 & S & _)|(Hr & t' & l & Hz & S)].
      * apply viable_app in S. apply K4 in S; [|auto]. revert S. apply mentions_sub; auto.
        intros l Hl. destruct b; [auto|]. apply in_app_iff; auto.
      * injection Hz as <- <-. apply Pm in S. revert S. apply mentions_sub; auto.
        intros l Hl. destruct b; [specialize (K3 eq_refl); lia|]. apply in_app_iff; auto. }
    assert (N : goes_on K g -> forall u, ~ sentence E g (slice s i r) u).
    { intros Hgo' u Hu. destruct (Cut r _ [] u K1 (eq_sym (app_nil_r _)) Hu) as [(v2 & S & ->)|(_ & t & l & Hz & _)]; [|discriminate].
      rewrite app_nil_r in S. exact (K5 (Hgo Hgo') _ S). }
    destruct b; cbn [on_dvalue d_after thorough]; exists r; (split; [auto|]); (split; [lia|]).
    + split; [discriminate|]. split; [intros _; specialize (K3 eq_refl); lia|]. auto.
    + specialize (K2 eq_refl). subst r. split; [intros Hij; apply Nat.ltb_ge in Hij; lia|].
      split; [intros Hij; apply Nat.ltb_lt in Hij; lia|]. auto.
Qed.
(** the first part fails *)
Lemma thorough_before s at_ A C (p : gram A) (g : gram C) K Kp m i b l X :
  diag E s at_ A p m i (DFail b l X) -> wf p -> i <= List.length s -> nice p -> ~ anonymous _ p ->
  ll1 E F p Kp ->
  (forall D (r : gram D), occurs E r A p -> occurs E r C g) ->
  (forall w u, sentence E g w u -> w <> [] \/ b = false -> exists w1 w2 v1, w = w1 ++ w2 /\ sentence E p w1 v1 /\
     (forall t w, w2 = t :: w -> Kp (Some t)) /\ (goes_on K g -> w2 = [] -> goes_on Kp p)) ->
  thorough s at_ p Kp i (DFail b l X) -> thorough s at_ g K i (DFail b l X).
Proof.
  intros Hp Wp Hi Np Ap HL Op Hg (r & -> & K1 & K2 & K3 & K4 & K5).
  exists r. split; [auto|]. split; [auto|]. split; [auto|]. split; [auto|]. split.
  - intros _ t Ht. apply viable_open in Ht as (w' & u & Hu).
    destruct (Hg _ _ Hu) as (w1 & w2 & v1 & G1 & G2 & G3 & _).
    { left. destruct (slice s i r); discriminate. }
    symmetry in G1.
    destruct (cut_fail _ _ _ _ _ _ _ _ _ _ _ _ _ _ _ Hp Wp Hi Np HL K1 G2 G1 G3) as (y & -> & Hy).
    destruct y as [|t' y].
    + exfalso. rewrite app_nil_r in G2. simpl in Hy. eapply K5; [left|exact G2]. exists t. eapply G3. eauto.
    + injection Hy as <- ->. apply viable_app in G2. apply K4 in G2; [|auto]. revert G2. apply mentions_sub; auto.
  - intros Hgo u Hu. destruct (Hg _ _ Hu) as (w1 & w2 & v1 & G1 & G2 & G3 & G4).
    { destruct b; [left|right; auto]. specialize (K3 eq_refl).
      destruct (slice_head s i r) as (x & y & Hs & _); [lia|lia|]. rewrite Hs. discriminate. }
    rewrite <- (app_nil_r (slice s i r)) in G1. symmetry in G1.
    destruct (cut_fail _ _ _ _ _ _ _ _ _ _ _ _ _ _ _ Hp Wp Hi Np HL K1 G2 G1 G3) as (y & -> & Hy).
    destruct y; [|discriminate]. destruct w2; [|discriminate]. rewrite app_nil_r in G2. eapply K5; eauto.
Qed.

Lemma thorough_wrap s at_ A (p g : gram A) K i o :
  (forall D (r : gram D), occurs E r A p -> occurs E r A g) ->
  (forall w v, sentence E g w v -> sentence E p w v) -> ~ anonymous _ p -> (goes_on K g -> goes_on K p) ->
  thorough s at_ p K i o -> thorough s at_ g K i o.
Proof.
  intros Ho Hs Ha Hg H. assert (Hv : forall w, viable E g w -> viable E p w).
  { intros w (w' & v & Hw). exists w', v. auto. }
  destruct o as [v j X|b l X|e]; [| |exact I].
  - destruct H as [H1 H2]. split; [auto|]. intros t Ht. apply Hv, H2 in Ht. revert Ht. apply mentions_sub; auto.
  - destruct H as (r & H1 & H2 & H3 & H4 & H5 & H6). exists r. split; [auto|]. split; [auto|]. split; [auto|].
    split; [auto|]. split.
    + intros _ t Ht. apply Hv, H5 in Ht; [|auto]. revert Ht. apply mentions_sub; auto.
    + intros Hgo v Hv'. eapply H6; eauto.
Qed.

Lemma go_sub A B (p : gram A) (g : gram B) (K K' : option T -> Prop) :
  (forall t, K (Some t) -> K' (Some t)) -> (forall P, everywhere E P g -> everywhere E P p) ->
  goes_on K g -> goes_on K' p.
Proof. intros H1 H2 [[t Ht]|H]; [left; eauto|right; auto]. Qed.


Lemma nice_here A (g : gram A) : nice g -> nice_node A g.
Proof. apply ev_here. Qed.
Lemma leaf_fail s at_ A (g : gram A) K i X :
  i <= List.length s ->
  (forall t, first E g t -> ~ anonymous A g -> mentions E g X t) -> (goes_on K g -> forall v, ~ sentence E g [] v) ->
  thorough s at_ g K i (DFail false (at_ i) X).
Proof.
  intros Hi H1 H2. exists i. split; [auto|]. split; [lia|]. split; [auto|]. split; [discriminate|].
  rewrite slice_nil. split; [|auto]. intros [H|H] t Ht; [discriminate|]. apply H1; [apply viable_first; exact Ht|exact H].
Qed.
Lemma one_more A (g : gram A) w n : (forall w v, sentence E g w v -> List.length w = n) ->
  List.length w = n -> forall t, ~ viable E g (w ++ [t]).
Proof.
  intros H Hn t Ht. apply viable_open in Ht as (w' & v & Ht). apply H in Ht. rewrite app_length in Ht. simpl in Ht. lia.
Qed.

Ltac occ := intros ? ? ?; econstructor; eassumption.

Lemma diag_thorough s at_ A (g : gram A) m i o :
  (forall a b, at_ a = at_ b -> a = b) ->
  diag E s at_ A g m i o -> wf g -> i <= List.length s -> nice g ->
  forall K, ll1 E F g K -> (exists o, K o) -> thorough s at_ g K i o.
Proof.
  intros Hinj H. induction H; intros Hw Hi Hc K HL HK; try exact I; pose proof HL as HL0; cbn in HL.
  all: try (destruct Hw as [Hn Hw]).
  - (* pure *) cbn. rewrite slice_nil. split; [intros v' Hv; apply sent_inv in Hv; apply Hv|].
    intros t (w' & v' & Ht). apply sent_inv in Ht as [Ht _]. discriminate.
  - cbn. rewrite slice_nil. split; [intros v' Hv; apply sent_inv in Hv as [_ Hv]; congruence|].
    intros t (w' & v' & Ht). apply sent_inv in Ht as [Ht _]. discriminate.
  - apply leaf_fail; auto; [|intros _ v Hv; apply sent_inv in Hv; exact Hv].
    intros t (w & v & Ht). apply sent_inv in Ht. destruct Ht.
  - cbn. rewrite slice_nil. split; [intros [] _; reflexivity|].
    intros t (w' & v' & Ht). apply sent_inv in Ht. discriminate.
  - apply leaf_fail; auto.
    + intros t (w & v & Ht). apply sent_inv in Ht. discriminate.
    + intros [[t Ht]|Ht] v _; [apply HL in Ht; discriminate|]. apply ev_here in Ht. apply Ht. exact I.
  - cbn. assert (i < List.length s) by (apply nth_error_Some; congruence).
    rewrite (slice_one s i t) by auto. split.
    + intros v' Hv. apply sent_inv in Hv as [Hv _]. congruence.
    + intros x Hx. exfalso. revert Hx. apply (one_more _ _ [t] 1); auto.
      intros w v Hv. apply sent_inv in Hv as [-> _]. reflexivity.
  - apply leaf_fail; auto; [|intros _ v Hv; apply sent_inv in Hv as [Hv _]; discriminate].
    intros x _ Hx. destruct Hx. exact I.
  - apply leaf_fail; auto; [|intros _ v Hv; apply sent_inv in Hv as [Hv _]; discriminate].
    intros x _ Hx. destruct Hx. exact I.
  - cbn. assert (i < List.length s) by (apply nth_error_Some; congruence).
    rewrite (slice_one s i t) by auto. split.
    + intros v' Hv. apply sent_inv in Hv as [Hv _]. congruence.
    + intros y Hy. exfalso. revert Hy. apply (one_more _ _ [t] 1); auto.
      intros w v Hv. apply sent_inv in Hv as [-> _]. reflexivity.
  - apply leaf_fail; auto; [|intros _ v Hv; apply sent_inv in Hv as [Hv _]; discriminate].
    intros y Hy _. apply mentions_here; [reflexivity|auto].
  - cbn. pose proof (starts_within _ _ _ _ H Hi). split.
    + intros v' Hv. apply sent_inv in Hv as [Hv _]. exact Hv.
    + intros y Hy. exfalso. revert Hy. apply (one_more _ _ _ (List.length x)).
      * intros w v Hv. apply sent_inv in Hv as [_ Hv]. apply Forall2_len in Hv. exact Hv.
      * rewrite slice_length by lia. lia.
  - apply leaf_fail; auto; [intros y Hy _; apply mentions_here; [reflexivity|auto]|].
    intros _ v Hv. apply sent_inv in Hv as [_ Hv]. apply Forall2_len in Hv.
    apply nice_here in Hc as (_ & Hc & _). simpl in Hc, Hv. lia.
  - apply nice_here in Hc as (_ & Hc & _). destruct Hc.
  - apply nice_here in Hc as (_ & Hc & _). destruct Hc.
  - (* fmap *) pose proof (ev_fmap _ _ _ _ _ _ Hc) as Hc1.
    destruct (IHdiag Hw Hi Hc1 K HL HK) as [I1 I2]. split.
    + intros v' Hv. apply sent_inv in Hv as (v0 & Hv & Hf). apply I1 in Hv. subst. congruence.
    + intros t Ht. apply viable_open in Ht as (w' & v' & Ht). apply sent_inv in Ht as (v0 & Hv & Hf).
      apply viable_app, I2 in Hv. revert Hv. apply mentions_sub; auto. occ.
  - pose proof (ev_fmap _ _ _ _ _ _ Hc) as Hc1.
    pose proof (nice_here _ _ Hc) as (_ & _ & _ & Ha & _).
    eapply thorough_before; [exact H|exact Hw|exact Hi|exact Hc1|exact Ha|exact HL|occ| |exact (IHdiag Hw Hi Hc1 K HL HK)].
    intros w u Hu _. apply sent_inv in Hu as (v0 & Hu & _). exists w, [], v0. rewrite app_nil_r.
    split; [auto|]. split; [auto|]. split; [discriminate|]. intros Hg _. revert Hg. apply go_sub; auto.
    intros P. apply ev_fmap.
  - (* alt, first *) destruct Hw as [Hw1 Hw2]. destruct HL as (L1 & L2 & L3 & L4).
    pose proof (ev_alt_l _ _ _ _ _ Hc) as Hc1.
    destruct (IHdiag Hw1 Hi Hc1 K L1 HK) as [I1 I2].
    pose proof (diag_valid E HE _ _ _ _ _ _ _ H Hw1 Hi (nice_compl _ _ Hc1)) as (V1 & V2 & _).
    assert (Hij : i < j).
    { destruct (Nat.eq_dec i j) as [->|]; [|lia]. exfalso. apply L3. rewrite slice_nil in V2. exists v. exact V2. }
    assert (Q : forall w v', ~ sentence E q (slice s i j ++ w) v').
    { intros w v' Hv. apply read_first in Hv as (x & Hx & Hf); [|lia].
      rewrite <- (app_nil_r (slice s i j)) in V2. apply read_first in V2 as (x' & Hx' & Hf'); [|lia].
      replace x' with x in * by congruence. apply (L4 (Some x)); [exact Hf'|left; exact Hf]. }
    split.
    + intros v' Hv. apply sent_inv in Hv as [Hv|Hv]; [auto|]. exfalso. apply (Q [] v'). rewrite app_nil_r. exact Hv.
    + intros t Ht. apply viable_open in Ht as (w' & v' & Ht). apply sent_inv in Ht as [Ht|Ht].
      * apply viable_app, I2 in Ht. revert Ht. apply mentions_sub; auto. occ.
      * exfalso. exact (Q _ _ Ht).
  - destruct Hw as [Hw1 Hw2]. destruct HL as (L1 & L2 & L3 & L4).
    pose proof (ev_alt_l _ _ _ _ _ Hc) as Hc1.
    destruct (IHdiag Hw1 Hi Hc1 K L1 HK) as (r & -> & I1 & I2 & I3 & I4 & I5). specialize (I3 eq_refl).
    pose proof (diag_valid E HE _ _ _ _ _ _ _ H Hw1 Hi (nice_compl _ _ Hc1)) as V1.
    destruct V1 as (r' & V0 & V1 & V2 & V3 & _).
    assert (P : exists x, nth_error s i = Some x /\ first E p x).
    { specialize (V2 eq_refl). specialize (V3 V2) as (w & v & V3). eapply read_first; [|exact V3]. lia. }
    assert (Q : forall w v', ~ sentence E q (slice s i r ++ w) v').
    { intros w v' Hv. apply read_first in Hv as (x & Hx & Hf); [|lia]. destruct P as (x' & Hx' & Hf').
      replace x' with x in * by congruence. apply (L4 (Some x)); [exact Hf'|left; exact Hf]. }
    exists r. split; [auto|]. split; [auto|]. split; [auto|]. split; [auto|]. split.
    + intros _ t Ht. apply viable_open in Ht as (w' & v' & Ht). apply sent_inv in Ht as [Ht|Ht].
      * apply viable_app, I4 in Ht; [|auto]. revert Ht. apply mentions_sub; auto. occ.
      * exfalso. exact (Q _ _ Ht).
    + intros Hg v' Hv. apply sent_inv in Hv as [Hv|Hv].
      * eapply I5; [|exact Hv]. revert Hg. apply go_sub; auto. intros P0. apply ev_alt_l.
      * apply (Q [] v'). rewrite app_nil_r. exact Hv.
  - (* alt, second *) destruct Hw as [Hw1 Hw2]. destruct HL as (L1 & L2 & L3 & L4).
    pose proof (ev_alt_l _ _ _ _ _ Hc) as Hc1. pose proof (ev_alt_r _ _ _ _ _ Hc) as Hc2.
    pose proof (nice_here _ _ Hc) as (_ & _ & _ & [Ha1 Ha2] & _).
    destruct (IHdiag1 Hw1 Hi Hc1 K L1 HK) as (r & -> & I1 & I2 & I3 & I4 & I5). specialize (I2 eq_refl). subst r.
    specialize (I4 (or_intror Ha1)). rewrite slice_nil in I4.
    pose proof (IHdiag2 Hw2 Hi Hc2 K L2 HK) as KO.
    pose proof (diag_valid E HE _ _ _ _ _ _ _ H0 Hw2 Hi (nice_compl _ _ Hc2)) as VO.
    assert (Q : forall x, nth_error s i = Some x -> first E q x -> forall k w v', i < k <= List.length s -> ~ sentence E p (slice s i k ++ w) v').
    { intros x Hx Hf k w v' Hk Hv. apply read_first in Hv as (x' & Hx' & Hf'); [|lia].
      replace x' with x in * by congruence. apply (L4 (Some x)); [exact Hf'|left; exact Hf]. }
    destruct o as [v k Y|b l Y|e]; [| |exact I].
    + destruct KO as [Q1 Q2]. destruct VO as (V1 & V2 & _).
      assert (Q' : i < k -> forall w v', ~ sentence E p (slice s i k ++ w) v').
      { intros Hk. pose proof V2 as V2'. rewrite <- (app_nil_r (slice s i k)) in V2'.
        apply read_first in V2' as (x & Hx & Hf); [|lia]. intros. apply (Q x); auto. lia. }
      cbn [d_else thorough]. split.
      * intros v' Hv. apply sent_inv in Hv as [Hv|Hv]; [|auto]. exfalso. destruct (Nat.eq_dec i k) as [<-|].
        -- rewrite slice_nil in Hv. apply L3. exists v'. exact Hv.
        -- apply (Q' ltac:(lia) [] v'). rewrite app_nil_r. exact Hv.
      * intros t Ht. apply viable_open in Ht as (w' & v' & Ht). apply sent_inv in Ht as [Ht|Ht].
        -- destruct (Nat.ltb_spec i k); [exfalso; exact (Q' H1 _ _ Ht)|].
           assert (k = i) as -> by lia. rewrite slice_nil in Ht. apply first_viable, I4 in Ht.
           revert Ht. apply mentions_sub; [occ|]. intros l Hl. apply in_app_iff; auto.
        -- apply viable_app, Q2 in Ht. revert Ht. apply mentions_sub; [intros; apply oc_alt_r; auto|].
           intros l Hl. destruct (Nat.ltb i k); auto. apply in_app_iff; auto.
    + destruct KO as (r & -> & O1 & O2 & O3 & O4 & O5). destruct b; cbn [d_else thorough].
      * specialize (O3 eq_refl).
        assert (Q' : forall w v', ~ sentence E p (slice s i r ++ w) v').
        { destruct VO as (r' & V0 & V1 & V2 & V3 & _). specialize (V2 eq_refl).
          specialize (V3 V2) as (w & v & V3). apply read_first in V3 as (x & Hx & Hf); [|lia].
          intros. apply (Q x); auto. lia. }
        exists r. split; [auto|]. split; [auto|]. split; [auto|]. split; [auto|]. split.
        -- intros _ t Ht. apply viable_open in Ht as (w' & v' & Ht). apply sent_inv in Ht as [Ht|Ht].
           ++ exfalso. exact (Q' _ _ Ht).
           ++ apply viable_app, O4 in Ht; [|auto]. revert Ht. apply mentions_sub; auto. intros; apply oc_alt_r; auto.
        -- intros Hg v' Hv. apply sent_inv in Hv as [Hv|Hv].
           ++ apply (Q' [] v'). rewrite app_nil_r. exact Hv.
           ++ eapply O5; [|exact Hv]. revert Hg. apply go_sub; auto. intros P0. apply ev_alt_r.
      * specialize (O2 eq_refl). subst r. rewrite slice_nil in O4, O5.
        exists i. split; [auto|]. split; [lia|]. split; [auto|]. split; [discriminate|]. rewrite slice_nil. split.
        -- intros _ t Ht. apply viable_open in Ht as (w' & v' & Ht). apply sent_inv in Ht as [Ht|Ht].
           ++ apply first_viable, I4 in Ht. revert Ht. apply mentions_sub; [occ|]. intros l Hl. apply in_app_iff; auto.
           ++ apply first_viable, O4 in Ht; [|auto]. revert Ht. apply mentions_sub; [intros; apply oc_alt_r; auto|].
              intros l Hl. apply in_app_iff; auto.
        -- intros Hg v' Hv. apply sent_inv in Hv as [Hv|Hv].
           ++ apply L3. exists v'. exact Hv.
           ++ eapply O5; [|exact Hv]. revert Hg. apply go_sub; auto. intros P0. apply ev_alt_r.
  - (* bind *) destruct Hw as [Hw1 Hw2]. destruct HL as [L1 L2].
    pose proof (ev_bind_l _ _ _ _ _ _ Hc) as Hc1. pose proof (ev_bind_r _ _ _ _ _ _ v Hc) as Hc2.
    pose proof (nice_here _ _ Hc) as (Hcm & _ & _ & [Ha1 Ha2] & _).
    pose proof (diag_valid E HE _ _ _ _ _ _ _ H Hw1 Hi (nice_compl _ _ Hc1)) as (V1 & V2 & _).
    assert (HKp : exists o, exists w v, sentence E p w v /\ starts E (f v) K o).
    { destruct (Hcm _ _ V2) as (w' & v' & Hv). destruct HK as [o0 Ho]. destruct w' as [|t w'].
      - exists o0. do 2 eexists. split; [exact V2|]. right. split; [exists v'; exact Hv|exact Ho].
      - exists (Some t). do 2 eexists. split; [exact V2|]. left. exists w', v'. exact Hv. }
    replace (d_after i j X o) with (on_dvalue (fun x => x) (d_after i j X o)) by (destruct o as [| []|]; reflexivity).
    eapply (thorough_after s at_ A B B p (f v)); [exact H|exact H0|exact Hw1|apply Hw2|exact Hi|exact Hc1|exact Hc2
      |apply Ha2|exact L1|exact HKp|occ|occ| | |exact (IHdiag1 Hw1 Hi Hc1 _ L1 HKp)
      |exact (IHdiag2 (Hw2 v) (proj2 V1) Hc2 K (L2 _ _ V2) HK)].
    + intros w u Hu. apply sent_inv in Hu as (w1 & w2 & v0 & -> & S1 & S2). exists w1, w2, v0.
      split; [auto|]. split; [auto|]. split.
      * intros t w ->. exists w1, v0. split; [auto|]. left. exists w, u. exact S2.
      * intros ->. exists u. auto.
    + apply go_sub; auto. intros P. apply ev_bind_r.
  - destruct Hw as [Hw1 Hw2]. destruct HL as [L1 L2].
    pose proof (ev_bind_l _ _ _ _ _ _ Hc) as Hc1.
    pose proof (nice_here _ _ Hc) as (Hcm & _ & _ & [Ha1 Ha2] & _).
    set (Kp := fun o => exists w v, sentence E p w v /\ starts E (f v) K o) in *.
    assert (HKp : (exists w v, sentence E p w v) -> exists o, Kp o).
    { intros (w & v & Hv0). destruct (Hcm _ _ Hv0) as (w' & v' & Hv). destruct HK as [o0 Ho]. destruct w' as [|t w'].
      - exists o0. do 2 eexists. split; [exact Hv0|]. right. split; [exists v'; exact Hv|exact Ho].
      - exists (Some t). do 2 eexists. split; [exact Hv0|]. left. exists w', v'. exact Hv. }
    assert (S : forall w u, sentence E (GBind p f) w u -> w <> [] \/ b = false -> exists w1 w2 v1, w = w1 ++ w2 /\ sentence E p w1 v1 /\
      (forall t w, w2 = t :: w -> Kp (Some t)) /\ (goes_on K (GBind p f) -> w2 = [] -> goes_on Kp p)).
    { intros w u Hu _. apply sent_inv in Hu as (w1 & w2 & v0 & -> & S1 & S2). exists w1, w2, v0.
      split; [auto|]. split; [auto|]. split.
      * intros t w ->. exists w1, v0. split; [auto|]. left. exists w, u. exact S2.
      * intros Hg ->. revert Hg. apply go_sub; [|intros P; apply ev_bind_l].
        intros t Ht. exists w1, v0. split; [auto|]. right. split; [exists u; exact S2|exact Ht]. }
    (* without a sentence of [p] there is nothing to show *)
    assert (TH : (exists w v, sentence E p w v) -> thorough s at_ (GBind p f) K i (DFail b l X)).
    { intros Hs. specialize (HKp Hs).
      eapply thorough_before; [exact H|exact Hw1|exact Hi|exact Hc1|exact Ha1|exact L1|occ|exact S|exact (IHdiag Hw1 Hi Hc1 _ L1 HKp)]. }
    destruct (diag_valid E HE _ _ _ _ _ _ _ H Hw1 Hi (nice_compl _ _ Hc1)) as (r & -> & V1 & V2 & _ & V3).
    exists r. split; [auto|]. split; [auto|]. split; [apply V3, nice_local; auto|]. split; [auto|]. split.
    + intros _ t Ht. destruct (TH) as (r' & Er & _ & _ & _ & T1 & _).
      { destruct Ht as (w & v & Ht). apply sent_inv in Ht as (w1 & w2 & v0 & _ & S1 & _). eauto. }
      apply Hinj in Er. subst r'. apply T1; auto.
    + intros Hg v Hv. destruct (TH) as (r' & Er & _ & _ & _ & _ & T1).
      { pose proof (sent_inv _ _ _ _ _ Hv) as (w1 & w2 & v0 & _ & S1 & _). eauto. }
      apply Hinj in Er. subst r'. exact (T1 Hg v Hv).
  - (* seq *) destruct Hw as [Hw1 Hw2]. destruct HL as [L1 L2].
    pose proof (ev_seq_l _ _ _ _ _ _ _ _ Hc) as Hc1. pose proof (ev_seq_r _ _ _ _ _ _ _ _ Hc) as Hc2.
    pose proof (nice_here _ _ Hc) as (Hcm & _ & _ & [Ha1 Ha2] & _).
    pose proof (diag_valid E HE _ _ _ _ _ _ _ H Hw1 Hi (nice_compl _ _ Hc1)) as (V1 & V2 & _).
    assert (HKp : exists o, starts E q K o).
    { destruct Hcm as (w' & v' & Hv). destruct HK as [o0 Ho]. destruct w' as [|t w'].
      - exists o0. right. split; [exists v'; exact Hv|exact Ho].
      - exists (Some t). left. exists w', v'. exact Hv. }
    eapply (thorough_after s at_ A B C p q); [exact H|exact H0|exact Hw1|apply Hw2|exact Hi|exact Hc1|exact Hc2
      |apply Ha2|exact L1|exact HKp|occ|intros; apply oc_seq_r; auto| | |exact (IHdiag1 Hw1 Hi Hc1 _ L1 HKp)
      |exact (IHdiag2 Hw2 (proj2 V1) Hc2 K L2 HK)].
    + intros w u Hu. apply sent_inv in Hu as (w1 & w2 & v1 & v2 & -> & -> & S1 & S2). exists w1, w2, v1.
      split; [auto|]. split; [auto|]. split.
      * intros t w ->. left. exists w, v2. exact S2.
      * intros ->. exists v2. auto.
    + apply go_sub; auto. intros P. apply ev_seq_r.
  - destruct Hw as [Hw1 Hw2]. destruct HL as [L1 L2].
    pose proof (ev_seq_l _ _ _ _ _ _ _ _ Hc) as Hc1.
    pose proof (nice_here _ _ Hc) as (Hcm & _ & _ & [Ha1 Ha2] & _).
    assert (HKp : exists o, starts E q K o).
    { destruct Hcm as (w' & v' & Hv). destruct HK as [o0 Ho]. destruct w' as [|t w'].
      - exists o0. right. split; [exists v'; exact Hv|exact Ho].
      - exists (Some t). left. exists w', v'. exact Hv. }
    eapply thorough_before; [exact H|exact Hw1|exact Hi|exact Hc1|exact Ha1|exact L1|occ| |exact (IHdiag Hw1 Hi Hc1 _ L1 HKp)].
    intros w u Hu _. apply sent_inv in Hu as (w1 & w2 & v1 & v2 & -> & -> & S1 & S2). exists w1, w2, v1.
    split; [auto|]. split; [auto|]. split.
    + intros t w ->. left. exists w, v2. exact S2.
    + intros Hg ->. revert Hg. apply go_sub; [|intros P; apply ev_seq_l].
      intros t Ht. right. split; [exists v2; exact S2|exact Ht].
  - (* maybe *) destruct HL as (L1 & L2 & L3). pose proof (ev_maybe _ _ _ _ Hc) as Hc1.
    destruct (IHdiag Hw Hi Hc1 K L1 HK) as [I1 I2].
    pose proof (diag_valid E HE _ _ _ _ _ _ _ H Hw Hi (nice_compl _ _ Hc1)) as (V1 & V2 & _).
    split.
    + intros v' Hv. apply sent_inv in Hv as [[Hv _]|(v0 & -> & Hv)]; [|f_equal; auto].
      exfalso. rewrite Hv in V2. apply L2. exists v. exact V2.
    + intros t Ht. apply viable_open in Ht as (w' & v' & Ht).
      apply sent_inv in Ht as [[Ht _]|(v0 & -> & Ht)]; [destruct (slice s i j); discriminate|].
      apply viable_app, I2 in Ht. revert Ht. apply mentions_sub; auto. occ.
  - destruct HL as (L1 & L2 & L3). pose proof (ev_maybe _ _ _ _ Hc) as Hc1.
    pose proof (nice_here _ _ Hc) as (_ & _ & _ & Ha & _).
    destruct (IHdiag Hw Hi Hc1 K L1 HK) as (r & -> & I1 & I2 & I3 & I4 & I5). specialize (I2 eq_refl). subst r.
    rewrite slice_nil in *. cbn. rewrite slice_nil. split.
    + intros v' Hv. apply sent_inv in Hv as [[_ Hv]|(v0 & -> & Hv)]; [auto|]. exfalso. apply L2. exists v0. exact Hv.
    + intros t (w' & v' & Ht). apply sent_inv in Ht as [[Ht _]|(v0 & -> & Ht)]; [discriminate|].
      apply first_viable, I4 in Ht; [|auto]. revert Ht. apply mentions_sub; auto. occ.
  - destruct HL as (L1 & L2 & L3). pose proof (ev_maybe _ _ _ _ Hc) as Hc1.
    pose proof (nice_here _ _ Hc) as (_ & _ & _ & Ha & _).
    eapply thorough_before; [exact H|exact Hw|exact Hi|exact Hc1|exact Ha|exact L1|occ| |exact (IHdiag Hw Hi Hc1 _ L1 HK)].
    intros w u Hu Hne. apply sent_inv in Hu as [[-> _]|(v0 & -> & Hu)]; [destruct Hne as [Hne|Hne]; congruence|].
    exists w, [], v0. rewrite app_nil_r. split; [auto|]. split; [auto|]. split; [discriminate|].
    intros Hg _. revert Hg. apply go_sub; auto. intros P. apply ev_maybe.
  - (* many *) pose proof HL as (L1 & L2 & L3). pose proof (ev_many _ _ _ _ Hc) as Hc1.
    pose proof (nice_here _ _ Hc) as (_ & _ & _ & Ha & Hpf).
    assert (HKp : exists o, first_is E p o \/ K o) by (destruct HK as [o0 Ho]; eauto).
    destruct (IHdiag1 Hw Hi Hc1 _ L1 HKp) as [I1 I2].
    pose proof (diag_valid E HE _ _ _ _ _ _ _ H0 Hw Hi (nice_compl _ _ Hc1)) as (V1 & V2 & _).
    destruct (IHdiag2 (conj Hn Hw) (proj2 V1) Hc K HL0 HK) as [J1 J2].
    pose proof (diag_valid E HE _ _ _ _ _ _ _ H1 (conj Hn Hw) (proj2 V1) (nice_compl _ _ Hc)) as (V3 & V4 & _).
    split.
    + intros v' Hv. apply sent_inv in Hv as [[Hv _]|(w1 & w2 & v1 & l1 & Hv & -> & S1 & S2)].
      * exfalso. destruct (slice_head s i k) as (x & y & Hx & _); [lia|lia|congruence].
      * rewrite <- (app_nil_r (slice s i k)) in Hv. symmetry in Hv.
        destruct (cut _ _ _ _ _ _ _ _ _ _ _ _ _ _ _ H0 Hw Hi Hc1 L1 HKp V3 S1 Hv) as [[-> ->]|(_ & t & l' & _ & Hz)]; [| |discriminate].
        -- intros t w ->. left. eapply many_first; eauto.
        -- rewrite app_nil_r in S2. f_equal; auto.
    + intros t Ht. apply viable_open in Ht as (w' & v' & Ht).
      apply sent_inv in Ht as [[Hv _]|(w1 & w2 & v1 & l1 & Hv & -> & S1 & S2)]; [destruct (slice s i k); discriminate|].
      symmetry in Hv.
      destruct (cut _ _ _ _ _ _ _ _ _ _ _ _ _ _ _ H0 Hw Hi Hc1 L1 HKp V3 S1 Hv) as [[-> ->]|(_ & t' & l' & -> & Hz)].
      * intros t0 w ->. left. eapply many_first; eauto.
      * apply viable_app, J2 in S2. exact S2.
      * exfalso. exact (Hpf _ _ _ _ _ V2 S1).
  - pose proof HL as (L1 & L2 & L3). pose proof (ev_many _ _ _ _ Hc) as Hc1.
    pose proof (nice_here _ _ Hc) as (_ & _ & _ & Ha & Hpf).
    assert (HKp : exists o, first_is E p o \/ K o) by (destruct HK as [o0 Ho]; eauto).
    pose proof (diag_valid E HE _ _ _ _ _ _ _ H0 Hw Hi (nice_compl _ _ Hc1)) as (V1 & V2 & _).
    destruct (IHdiag2 (conj Hn Hw) (proj2 V1) Hc K HL0 HK) as (r & -> & J1 & J2 & J3 & J4 & J5).
    pose proof (many_commits _ _ _ _ _ _ _ _ H1) as Hb. simpl in Hb. subst b. specialize (J3 eq_refl).
    exists r. split; [auto|]. split; [lia|]. split; [discriminate|]. split; [lia|]. split.
    + intros _ t Ht. apply viable_open in Ht as (w' & v' & Ht).
      apply sent_inv in Ht as [[Hv _]|(w1 & w2 & v1 & l1 & Hv & -> & S1 & S2)]; [destruct (slice s i r); discriminate|].
      symmetry in Hv.
      destruct (cut _ _ _ _ _ _ _ _ _ _ _ _ _ _ _ H0 Hw Hi Hc1 L1 HKp J1 S1 Hv) as [[-> ->]|(-> & t' & l' & _ & Hz)]; [| |lia].
      * intros t0 w ->. left. eapply many_first; eauto.
      * apply viable_app, J4 in S2; auto.
    + intros Hg v' Hv. apply sent_inv in Hv as [[Hv _]|(w1 & w2 & v1 & l1 & Hv & -> & S1 & S2)].
      * exfalso. destruct (slice_head s i r) as (x & y & Hx & _); [lia|lia|congruence].
      * rewrite <- (app_nil_r (slice s i r)) in Hv. symmetry in Hv.
        destruct (cut _ _ _ _ _ _ _ _ _ _ _ _ _ _ _ H0 Hw Hi Hc1 L1 HKp J1 S1 Hv) as [[-> ->]|(_ & t & l' & _ & Hz)]; [| |discriminate].
        -- intros t w ->. left. eapply many_first; eauto.
        -- rewrite app_nil_r in S2. exact (J5 Hg _ S2).
  - pose proof HL as (L1 & L2 & L3). pose proof (ev_many _ _ _ _ Hc) as Hc1.
    pose proof (nice_here _ _ Hc) as (_ & _ & _ & Ha & Hpf).
    assert (HKp : exists o, first_is E p o \/ K o) by (destruct HK as [o0 Ho]; eauto).
    destruct (IHdiag Hw Hi Hc1 _ L1 HKp) as (r & -> & I1 & I2 & I3 & I4 & I5). specialize (I2 eq_refl). subst r.
    rewrite slice_nil in *. cbn. rewrite slice_nil. split.
    + intros v' Hv. apply sent_inv in Hv as [[_ Hv]|(w1 & w2 & v1 & l1 & Hv & -> & S1 & S2)]; [auto|].
      exfalso. symmetry in Hv. apply app_eq_nil in Hv as [-> _]. apply L2. exists v1. exact S1.
    + intros t (w' & v' & Ht). apply many_first in Ht as (w & v0 & Ht); [|auto].
      apply first_viable, I4 in Ht; [|auto]. revert Ht. apply mentions_sub; auto. occ.
  - pose proof HL as (L1 & L2 & L3). pose proof (ev_many _ _ _ _ Hc) as Hc1.
    pose proof (nice_here _ _ Hc) as (_ & _ & _ & Ha & Hpf).
    assert (HKp : exists o, first_is E p o \/ K o) by (destruct HK as [o0 Ho]; eauto).
    eapply thorough_before; [exact H|exact Hw|exact Hi|exact Hc1|exact Ha|exact L1|occ| |exact (IHdiag Hw Hi Hc1 _ L1 HKp)].
    intros w u Hu Hne. apply sent_inv in Hu as [[-> _]|(w1 & w2 & v1 & l1 & -> & -> & S1 & S2)]; [destruct Hne as [Hne|Hne]; congruence|].
    exists w1, w2, v1. split; [auto|]. split; [auto|]. split.
    + intros t w ->. left. eapply many_first; eauto.
    + intros Hg ->. revert Hg. apply go_sub; [auto|]. intros P. apply ev_many.
  - apply nice_here in Hc as (_ & Hc & _). destruct Hc.
  - apply nice_here in Hc as (_ & Hc & _). destruct Hc.
  - (* label *) pose proof (ev_label _ _ _ _ _ Hc) as Hc1.
    pose proof (IHdiag Hw Hi Hc1 K HL HK) as IO.
    pose proof (diag_valid E HE _ _ _ _ _ _ _ H Hw Hi (nice_compl _ _ Hc1)) as VO.
    assert (Hf : forall t w v, sentence E p (t :: w) v -> mentions E (GLabel p x) [x] t).
    { intros t w v Ht. apply mentions_here; [reflexivity|]. exists w, v. constructor. exact Ht. }
    destruct o as [v j X|b l X|e]; [| |exact I].
    + destruct IO as [I1 I2]. destruct VO as (V1 & _). cbn [d_label thorough]. split.
      * intros v' Hv. apply sent_inv in Hv. auto.
      * intros t Ht. apply viable_open in Ht as (w' & v' & Ht). apply sent_inv in Ht. cbn in Ht.
        destruct (Nat.ltb_spec i j).
        -- apply viable_app, I2 in Ht. revert Ht. apply mentions_sub; auto. occ.
        -- assert (j = i) as -> by lia. rewrite slice_nil in Ht. eapply Hf. exact Ht.
    + destruct IO as (r & -> & I1 & I2 & I3 & I4 & I5).
      assert (N : goes_on K (GLabel p x) -> forall v, ~ sentence E (GLabel p x) (slice s i r) v).
      { intros Hg v Hv. apply sent_inv in Hv. cbn in Hv. eapply I5; [|exact Hv]. revert Hg. apply go_sub; auto.
        intros P. apply ev_label. }
      destruct b; cbn [d_label thorough]; exists r; (split; [auto|]); (split; [auto|]); (split; [auto|]); (split; [auto|]); (split; [|auto]).
      * intros _ t Ht. apply viable_open in Ht as (w' & v' & Ht). apply sent_inv in Ht. cbn in Ht.
        apply viable_app, I4 in Ht; [|auto]. revert Ht. apply mentions_sub; auto. occ.
      * specialize (I2 eq_refl). subst r. rewrite slice_nil.
        intros _ t (w' & v' & Ht). apply sent_inv in Ht. cbn in Ht. eapply Hf. exact Ht.
  - pose proof (ev_recover _ _ _ _ Hc) as Hc1. pose proof (nice_here _ _ Hc) as (_ & _ & _ & Ha & _).
    eapply thorough_wrap; [occ| |exact Ha| |exact (IHdiag Hw Hi Hc1 K HL HK)].
    + intros w v Hv. apply sent_inv in Hv. exact Hv.
    + apply go_sub; auto. intros P. apply ev_recover.
  - pose proof (ev_with _ _ _ _ _ _ Hc) as Hc1. pose proof (nice_here _ _ Hc) as (_ & _ & _ & Ha & _).
    eapply thorough_wrap; [occ| |exact Ha| |exact (IHdiag Hw Hi Hc1 K HL HK)].
    + intros w v Hv. apply sent_inv in Hv. exact Hv.
    + apply go_sub; auto. intros P. apply ev_with.
  - pose proof (ev_withfn _ _ _ _ _ _ Hc) as Hc1. pose proof (nice_here _ _ Hc) as (_ & _ & _ & Ha & _).
    eapply thorough_wrap; [occ| |exact Ha| |exact (IHdiag Hw Hi Hc1 K HL HK)].
    + intros w v Hv. apply sent_inv in Hv. exact Hv.
    + apply go_sub; auto. intros P. apply ev_withfn.
  - destruct HL.
  - destruct HL.
  - destruct HL.
  - destruct HL.
  - destruct HL.
  - (* delay *) pose proof (ev_delay _ _ _ Hc) as Hc1. pose proof (nice_here _ _ Hc) as (_ & _ & _ & Ha & _).
    assert (HKd : exists o, F d o) by (destruct HK as [o0 Ho]; eauto).
    pose proof (IHdiag (HE d) Hi Hc1 (F d) (HF d) HKd) as IO.
    assert (G : goes_on K (GDelay d) -> goes_on (F d) (E d)).
    { apply go_sub; auto. intros P. apply ev_delay. }
    assert (S : forall w v, sentence E (GDelay d) w v -> sentence E (E d) w v).
    { intros w v Hv. apply sent_inv in Hv. exact Hv. }
    assert (Sv : forall w, viable E (GDelay d) w -> viable E (E d) w).
    { intros w (w' & v & Hv). exists w', v. auto. }
    destruct o as [v j X|b l X|e]; [| |exact I].
    + destruct IO as [I1 I2]. split; [auto|]. intros t Ht. apply Sv, I2 in Ht. revert Ht. apply mentions_sub; auto. occ.
    + destruct IO as (r & I0 & I1 & I2 & I3 & I4 & I5). exists r. split; [auto|]. split; [auto|]. split; [auto|].
      split; [auto|]. split.
      * intros _ t Ht. apply Sv, I4 in Ht; [|auto]. revert Ht. apply mentions_sub; auto. occ.
      * intros Hg v Hv. exact (I5 (G Hg) _ (S _ _ Hv)).
Qed.
End Complete.
