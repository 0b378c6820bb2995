(** How many expected values an error lists (C64). *)
From Verif Require Import LL DiagSpec CostSpec CostProofs.
From Coq Require Import Lia.

Section ExpLen.
Context {T : Type} {V : nat -> Type}.
Variable E : env T V.
Notation gram := (gram T V).
Hypothesis HE : wf_env E.

Definition dok (s : list T) {A} (g : gram A) (i : nat) (o : dres A) : Prop :=
  match o with
  | DSucc v j _ => i <= j <= List.length s /\ sentence E g (slice s i j) v
  | _ => True
  end.
Lemma dok_after s A B C (p : gram A) (q : gram B) (g : gram C) (h : B -> C) i v j X o :
  (forall w w' v', sentence E p w v -> sentence E q w' v' -> sentence E g (w ++ w') (h v')) ->
  dok s p i (DSucc v j X) -> dok s q j o -> dok s g i (on_dvalue h (d_after i j X o)).
Proof.
  intros H [K1 K2] HO. destruct o as [v' k Y|[] l Y|e]; simpl in *; auto. destruct HO as [O1 O2].
  split; [lia|]. rewrite <- (slice_app s i j k) by lia. auto.
Qed.
Lemma diag_sound s at_ A (g : gram A) m i o :
  diag E s at_ A g m i o -> wf g -> i <= List.length s -> dok s g i o.
Proof.
  intros H. induction H; intros Hw Hi; try exact I; try (destruct Hw as [Hn Hw]).
  all: try (simpl; rewrite ?slice_nil; split; [lia|constructor; auto]; fail).
  - simpl. assert (i < List.length s) by (apply nth_error_Some; congruence).
    split; [lia|]. rewrite (slice_one s i t) by auto. constructor; auto.
  - simpl. assert (i < List.length s) by (apply nth_error_Some; congruence).
    split; [lia|]. rewrite (slice_one s i t) by auto. constructor; auto.
  - simpl. pose proof (starts_within _ _ _ _ H Hi). split; [lia|]. apply la_lit, starts_slice. exact H.
  - simpl. destruct (Hn s i e (Some v) Hi H). split; [lia|]. apply la_re. exact H.
  - destruct (IHdiag Hw Hi) as [K1 K2]. split; [auto|]. econstructor; eauto.
  - destruct Hw as [Hw1 Hw2]. destruct (IHdiag Hw1 Hi) as [K1 K2]. split; [auto|]. constructor; auto.
  - destruct Hw as [Hw1 Hw2]. specialize (IHdiag2 Hw2 Hi). destruct o as [v k Y|[] l' Y|e]; simpl; auto.
    destruct IHdiag2 as [K1 K2]. split; [auto|]. apply la_alt_r. exact K2.
  - destruct Hw as [Hw1 Hw2]. specialize (IHdiag1 Hw1 Hi). specialize (IHdiag2 (Hw2 v) (proj2 (proj1 IHdiag1))).
    replace (d_after i j X o) with (on_dvalue (fun x => x) (d_after i j X o)) by (destruct o as [| []|]; reflexivity).
    revert IHdiag1 IHdiag2. apply dok_after. intros. eapply se_bind; eauto.
  - destruct Hw as [Hw1 Hw2]. specialize (IHdiag1 Hw1 Hi). specialize (IHdiag2 Hw2 (proj2 (proj1 IHdiag1))).
    revert IHdiag1 IHdiag2. apply dok_after. intros. apply se_seq; auto.
  - destruct (IHdiag Hw Hi) as [K1 K2]. split; [auto|]. constructor; auto.
  - destruct (IHdiag1 Hw Hi) as [K1 K2]. destruct (IHdiag2 (conj Hn Hw) (proj2 K1)) as [O1 O2].
    split; [lia|]. rewrite <- (slice_app s i j k) by lia. apply se_many; auto.
  - destruct (IHdiag Hw Hi) as [K1 K2]. split; [auto|]. constructor; auto.
  - specialize (IHdiag Hw Hi). destruct o as [v k Y|[] l Y|e]; simpl; auto. destruct IHdiag. split; [auto|constructor; auto].
  - specialize (IHdiag Hw Hi). destruct o as [v k Y|b l Y|e]; simpl; auto. destruct IHdiag. split; [auto|constructor; auto].
  - specialize (IHdiag Hw Hi). destruct o as [v k Y|b l0 Y|e]; simpl; auto. destruct IHdiag. split; [auto|constructor; auto].
  - specialize (IHdiag Hw Hi). destruct o as [v k Y|b l Y|e]; simpl; auto. destruct IHdiag. split; [auto|constructor; auto].
  - specialize (IHdiag Hw Hi). destruct o as [v k Y|b l Y|e]; simpl; auto. destruct IHdiag. split; [auto|constructor; auto].
  - specialize (IHdiag Hw Hi). destruct o as [v k Y|b l Y|e]; simpl; auto. destruct IHdiag. split; [auto|constructor; auto].
  - specialize (IHdiag Hw Hi). destruct o as [v k Y|b l Y|e]; simpl; auto. destruct IHdiag. split; [auto|constructor; auto].
  - specialize (IHdiag (HE d) Hi). destruct o as [v k Y|b l Y|e]; simpl; auto. destruct IHdiag. split; [auto|constructor; auto].
Qed.

(** *** Without Delay *)
Definition names {A} (o : dres A) : nat :=
  match o with DSucc _ _ X | DFail _ _ X => List.length X | DExn _ => 0 end.
Lemma names_after A i j X (o : dres A) : names (d_after i j X o) <= List.length X + names o.
Proof. destruct o as [v k Y|[] l Y|e]; simpl; rewrite ?app_length; try lia. destruct (Nat.ltb j k); rewrite ?app_length; lia. Qed.
Lemma names_else A i l X (o : dres A) : names (d_else i l X o) <= List.length X + names o.
Proof. destruct o as [v k Y|[] l' Y|e]; simpl; rewrite ?app_length; try lia. destruct (Nat.ltb i k); rewrite ?app_length; lia. Qed.
Lemma names_label A i x (o : dres A) : names (d_label i x o) <= names o + 1.
Proof. destruct o as [v k Y|[] l' Y|e]; simpl; try lia. destruct (Nat.ltb i k); simpl; lia. Qed.
Lemma names_on A B (f : A -> B) (o : dres A) : names (on_dvalue f o) = names o.
Proof. destruct o; reflexivity. Qed.
Lemma flat_names s at_ A (g : gram A) m i o :
  diag E s at_ A g m i o -> forall w, no_delay g -> size_le g w -> names o <= w.
Proof.
  intros H. induction H; intros W Hd Hs; try (destruct Hd as [Hn Hd]); cbn [size_le] in Hs; try (simpl; lia).
  all: try (destruct Hs as (wa & Hs & Hw); specialize (IHdiag wa Hd Hs); simpl in *; lia).
  - destruct Hs as (wa & wb & K1 & K2 & K3), Hd as [D1 D2]. specialize (IHdiag wa D1 K1). simpl in *. lia.
  - destruct Hs as (wa & wb & K1 & K2 & K3), Hd as [D1 D2]. specialize (IHdiag wa D1 K1). simpl in *. lia.
  - destruct Hs as (wa & wb & K1 & K2 & K3), Hd as [D1 D2]. specialize (IHdiag1 wa D1 K1). specialize (IHdiag2 wb D2 K2).
    pose proof (names_else _ i l X o). simpl in *. lia.
  - destruct Hs as (wa & wb & K1 & K2 & K3), Hd as [D1 D2]. specialize (IHdiag1 wa D1 K1). specialize (IHdiag2 wb (D2 v) (K2 v)).
    pose proof (names_after _ i j X o). simpl in *. lia.
  - destruct Hs as (wa & wb & K1 & K2 & K3), Hd as [D1 D2]. specialize (IHdiag wa D1 K1). simpl in *. lia.
  - destruct Hs as (wa & wb & K1 & K2 & K3), Hd as [D1 D2]. specialize (IHdiag1 wa D1 K1). specialize (IHdiag2 wb D2 K2).
    rewrite names_on. pose proof (names_after _ i j X o). simpl in *. lia.
  - destruct Hs as (wa & wb & K1 & K2 & K3), Hd as [D1 D2]. specialize (IHdiag wa D1 K1). simpl in *. lia.
  - apply (IHdiag2 W (conj Hn Hd) Hs).
  - apply (IHdiag2 W (conj Hn Hd) Hs).
  - destruct Hs as (wa & Hs & Hw). specialize (IHdiag wa Hd Hs). pose proof (names_label _ i x o). lia.
  - destruct Hs as (wa & _ & Hw). simpl. lia.
  - destruct Hs as (wa & _ & Hw). simpl. lia.
Qed.

(** *** With Delays, without attempt *)
Variables B R : nat.
Hypothesis HB : forall d, size_le (E d) B.
Hypothesis HR : forall d, left_depth E R (E d).
Hypothesis HA : forall d, no_attempt (E d).
Lemma size_pos A (g : gram A) n : size_le g n -> 1 <= n.
Proof. destruct g; cbn [size_le]; intros H; try lia; destruct H as (a & H); try (destruct H as (b & H)); intuition lia. Qed.

(** per parser, while nothing is read *)
Fixpoint ubound (r : nat) : nat := match r with O => 1 | S r => B * ubound r end.
Definition umax : nat := ubound (S R).
Definition reading (r d : nat) : nat := B * umax * ((R + 2) * d + r).
Lemma B_pos : 1 <= B. Proof. exact (size_pos _ _ _ (HB 0)). Qed.
Lemma ubound_pos r : 1 <= ubound r.
Proof. pose proof B_pos. induction r; simpl; nia. Qed.
Lemma ubound_mono r r' : r <= r' -> ubound r <= ubound r'.
Proof. pose proof B_pos. induction 1; auto. pose proof (ubound_pos m). simpl. nia. Qed.
Definition lim (s : list T) (n r i : nat) {A} (o : dres A) : Prop :=
  match o with
  | DSucc _ j X => List.length X <= if Nat.ltb i j then n * umax + reading r (j - i) else n * ubound r
  | DFail b _ X => List.length X <= if b then n * umax + reading r (List.length s - i) else n * ubound r
  | DExn _ => True
  end.
Lemma reading_mono r r' d d' : (R + 2) * d + r <= (R + 2) * d' + r' -> reading r d <= reading r' d'.
Proof. unfold reading. apply Nat.mul_le_mono_l. Qed.
Lemma lim_mono s n n' r i A (o : dres A) : n <= n' -> lim s n r i o -> lim s n' r i o.
Proof.
  intros H. destruct o as [v j X|b l X|e]; simpl; auto.
  - destruct (Nat.ltb i j); nia.
  - destruct b; nia.
Qed.
Lemma lim_after s a b r i A' (v : A') j X A (o : dres A) :
  lim s a r i (DSucc v j X) -> i <= j <= List.length s -> r <= S R ->
  match o with DSucc _ k _ => j <= k <= List.length s | _ => True end ->
  lim s b (if Nat.ltb i j then S R else r) j o -> lim s (a + b) r i (d_after i j X o).
Proof.
  intros H Hj Hr Hk HO. pose proof (ubound_mono r (S R) Hr) as Hu. fold umax in Hu.
  assert (Hread : forall e, j <= e -> i < j -> reading (S R) (e - j) <= reading r (e - i)).
  { intros e He Hij. apply reading_mono. replace (e - i) with ((e - j) + (j - i)) by lia. nia. }
  assert (Hup : forall e, j <= e -> reading r (j - i) <= reading r (e - i)).
  { intros e He. apply reading_mono. assert (j - i <= e - i) by lia. nia. }
  assert (Hz : forall x, reading x 0 <= reading x (j - i)) by (intros; apply reading_mono; nia).
  simpl in H. destruct (Nat.ltb_spec i j) as [Hij|Hij].
  - destruct o as [v' k Y|[] l Y|e]; cbn [d_after lim] in *; auto.
    + destruct (Nat.ltb_spec i k); [|lia]. destruct (Nat.ltb_spec j k).
      * specialize (Hread k ltac:(lia) Hij). nia.
      * assert (k = j) as -> by lia. rewrite app_length. fold umax in HO. nia.
    + specialize (Hread (List.length s) ltac:(lia) Hij). nia.
    + rewrite app_length. destruct (Nat.ltb_spec i j); [|lia]. fold umax in HO. specialize (Hup (List.length s) ltac:(lia)). nia.
  - assert (j = i) as -> by lia. destruct o as [v' k Y|[] l Y|e]; cbn [d_after lim] in *; auto.
    + destruct (Nat.ltb_spec i k); [nia|]. rewrite app_length. nia.
    + nia.
    + rewrite app_length. rewrite Nat.ltb_irrefl. nia.
Qed.
Lemma lim_else s a b r i l X A (o : dres A) : List.length X <= a * ubound r -> lim s b r i o ->
  lim s (a + b) r i (d_else i l X o).
Proof.
  intros H HO. destruct o as [v' k Y|[] l' Y|e]; cbn [d_else lim] in *; auto.
  - destruct (Nat.ltb_spec i k); [nia|]. rewrite app_length. nia.
  - nia.
  - rewrite app_length. nia.
Qed.
Lemma lim_on s n r i A C (f : A -> C) (o : dres A) : lim s n r i (on_dvalue f o) <-> lim s n r i o.
Proof. destruct o; reflexivity. Qed.
Lemma left_any A (g : gram A) : left_depth E (S R) g.
Proof. intros d _. apply HR. Qed.

Lemma diag_lim s at_ A (g : gram A) m i o :
  diag E s at_ A g m i o -> wf g -> no_attempt g -> i <= List.length s -> forall n r,
  size_le g n -> r <= S R -> left_depth E r g -> lim s n r i o.
Proof.
  intros H. induction H; intros Hw Ha Hi n r Hn Hr Hd; try exact I;
    try (destruct Hw as [Hw0 Hw]); try (destruct Ha as [Ha0 Ha]); pose proof (size_pos _ _ _ Hn) as Hn1; pose proof (ubound_pos r) as Hu1;
    cbn [size_le] in Hn.
  all: try (cbn [lim List.length]; lia).
  all: try (cbn [lim List.length]; nia).
  - (* fmap *) destruct Hn as (wa & Hn & Hl). apply (lim_mono s wa n r i A (DSucc v j X)); [lia|]. apply IHdiag; auto.
    refine (left_sub E _ _ _ _ _ Hd _). intros d Hc. constructor. exact Hc.
  - destruct Hn as (wa & Hn & Hl). apply (lim_mono s wa n r i A (DFail b l X)); [lia|]. apply IHdiag; auto.
    refine (left_sub E _ _ _ _ _ Hd _). intros d Hc. constructor. exact Hc.
  - (* alt *) destruct Hn as (wa & wb & H1 & H2 & Hl), Hw as [W1 W2], Ha as [A1 A2].
    apply (lim_mono s wa n r i A (DSucc v j X)); [lia|]. apply IHdiag; auto.
    refine (left_sub E _ _ _ _ _ Hd _). intros d Hc. apply hd_alt_l. exact Hc.
  - destruct Hn as (wa & wb & H1 & H2 & Hl), Hw as [W1 W2], Ha as [A1 A2].
    apply (lim_mono s wa n r i A (DFail true l X)); [lia|]. apply IHdiag; auto.
    refine (left_sub E _ _ _ _ _ Hd _). intros d Hc. apply hd_alt_l. exact Hc.
  - destruct Hn as (wa & wb & H1 & H2 & Hl), Hw as [W1 W2], Ha as [A1 A2].
    apply (lim_mono s (wa + wb) n); [lia|]. apply lim_else.
    + apply (IHdiag1 W1 A1 Hi wa r H1 Hr). refine (left_sub E _ _ _ _ _ Hd _). intros d Hc. apply hd_alt_l. exact Hc.
    + apply (IHdiag2 W2 A2 Hi wb r H2 Hr). refine (left_sub E _ _ _ _ _ Hd _). intros d Hc. apply hd_alt_r. exact Hc.
  - (* bind *) destruct Hn as (wa & wb & H1 & H2 & Hl), Hw as [W1 W2], Ha as [A1 A2].
    destruct (diag_sound _ _ _ _ _ _ _ H W1 Hi) as [J1 J2].
    apply (lim_mono s (wa + wb) n); [lia|]. apply (lim_after s wa wb r i A v); auto.
    + apply IHdiag1; auto. refine (left_sub E _ _ _ _ _ Hd _). intros d Hc. apply hd_bind_l. exact Hc.
    + pose proof (diag_sound _ _ _ _ _ _ _ H0 (W2 v) (proj2 J1)) as J3. destruct o; auto. apply J3.
    + destruct (Nat.ltb_spec i j) as [Hij|Hij].
      * apply (IHdiag2 (W2 v) (A2 v) (proj2 J1) wb (S R) (H2 v) (le_n _) (left_any _ _)).
      * assert (j = i) as -> by lia. apply (IHdiag2 (W2 v) (A2 v) (proj2 J1) wb r (H2 v) Hr).
        refine (left_sub E _ _ _ _ _ Hd _). intros d Hc. rewrite slice_nil in J2. eapply hd_bind_r; [exact J2|exact Hc].
  - destruct Hn as (wa & wb & H1 & H2 & Hl), Hw as [W1 W2], Ha as [A1 A2].
    apply (lim_mono s wa n r i A (DFail b l X)); [lia|]. apply IHdiag; auto.
    refine (left_sub E _ _ _ _ _ Hd _). intros d Hc. apply hd_bind_l. exact Hc.
  - (* seq *) destruct Hn as (wa & wb & H1 & H2 & Hl), Hw as [W1 W2], Ha as [A1 A2].
    destruct (diag_sound _ _ _ _ _ _ _ H W1 Hi) as [J1 J2]. apply lim_on.
    apply (lim_mono s (wa + wb) n); [lia|]. apply (lim_after s wa wb r i A v); auto.
    + apply IHdiag1; auto. refine (left_sub E _ _ _ _ _ Hd _). intros d Hc. apply hd_seq_l. exact Hc.
    + pose proof (diag_sound _ _ _ _ _ _ _ H0 W2 (proj2 J1)) as J3. destruct o; auto. apply J3.
    + destruct (Nat.ltb_spec i j) as [Hij|Hij].
      * apply (IHdiag2 W2 A2 (proj2 J1) wb (S R) H2 (le_n _) (left_any _ _)).
      * assert (j = i) as -> by lia. apply IHdiag2; auto.
        refine (left_sub E _ _ _ _ _ Hd _). intros d Hc. rewrite slice_nil in J2. eapply hd_seq_r; [exact J2|exact Hc].
  - destruct Hn as (wa & wb & H1 & H2 & Hl), Hw as [W1 W2], Ha as [A1 A2].
    apply (lim_mono s wa n r i A (DFail b l X)); [lia|]. apply IHdiag; auto.
    refine (left_sub E _ _ _ _ _ Hd _). intros d Hc. apply hd_seq_l. exact Hc.
  - (* maybe *) destruct Hn as (wa & Hn & Hl). apply (lim_mono s wa n r i A (DSucc v j X)); [lia|]. apply IHdiag; auto.
    refine (left_sub E _ _ _ _ _ Hd _). intros d Hc. constructor. exact Hc.
  - destruct Hn as (wa & Hn & Hl). assert (K : lim s wa r i (DFail (A:=A) false l X)).
    { apply IHdiag; auto. refine (left_sub E _ _ _ _ _ Hd _). intros d Hc. constructor. exact Hc. }
    cbn [lim] in *. rewrite Nat.ltb_irrefl. nia.
  - destruct Hn as (wa & Hn & Hl). apply (lim_mono s wa n r i A (DFail true l X)); [lia|]. apply IHdiag; auto.
    refine (left_sub E _ _ _ _ _ Hd _). intros d Hc. constructor. exact Hc.
  - (* many *) destruct (diag_sound _ _ _ _ _ _ _ H0 Hw Hi) as [J1 _].
    destruct (diag_sound _ _ _ _ _ _ _ H1 (conj Hw0 Hw) (proj2 J1)) as [J2 _].
    assert (K : lim s n (S R) j (DSucc l k Y)) by (apply (IHdiag2 (conj Hw0 Hw) (conj Ha0 Ha) (proj2 J1) n (S R) Hn (le_n _) (left_any _ _))).
    cbn [lim] in *. destruct (Nat.ltb_spec i k); [|lia]. destruct (Nat.ltb_spec j k).
    + assert (reading (S R) (k - j) <= reading r (k - i)); [|lia].
      apply reading_mono. replace (k - i) with ((k - j) + (j - i)) by lia. nia.
    + fold umax in K. lia.
  - destruct (diag_sound _ _ _ _ _ _ _ H0 Hw Hi) as [J1 _].
    assert (K : lim s n (S R) j (DFail (A:=list A) b l Y)) by (apply (IHdiag2 (conj Hw0 Hw) (conj Ha0 Ha) (proj2 J1) n (S R) Hn (le_n _) (left_any _ _))).
    pose proof (many_commits _ _ _ _ _ _ _ _ H1) as Hb. cbn in Hb. subst b. cbn [lim] in *.
    assert (reading (S R) (List.length s - j) <= reading r (List.length s - i)); [|lia].
    apply reading_mono. replace (List.length s - i) with ((List.length s - j) + (j - i)) by lia. nia.
  - destruct Hn as (wa & Hn & Hl). assert (K : lim s wa r i (DFail (A:=A) false l X)).
    { apply IHdiag; auto. refine (left_sub E _ _ _ _ _ Hd _). intros d Hc. constructor. exact Hc. }
    cbn [lim] in *. rewrite Nat.ltb_irrefl. nia.
  - destruct Hn as (wa & Hn & Hl). apply (lim_mono s wa n r i A (DFail true l X)); [lia|]. apply IHdiag; auto.
    refine (left_sub E _ _ _ _ _ Hd _). intros d Hc. constructor. exact Hc.
  - (* attempt *) exfalso. apply Ha0. exact I.
  - exfalso. apply Ha0. exact I.
  - (* label *) destruct Hn as (wa & Hn & Hl). assert (K : lim s wa r i o).
    { apply IHdiag; auto. refine (left_sub E _ _ _ _ _ Hd _). intros d Hc. constructor. exact Hc. }
    apply (lim_mono s wa n) in K; [|lia].
    destruct o as [v k Y|[] l Y|e]; cbn [d_label lim] in *; auto; try (simpl; nia).
    destruct (Nat.ltb i k); [auto|simpl; nia].
  - destruct Hn as (wa & Hn & Hl). apply (lim_mono s wa n); [lia|]. apply IHdiag; auto.
    refine (left_sub E _ _ _ _ _ Hd _). intros d Hc. constructor. exact Hc.
  - destruct Hn as (wa & Hn & Hl). apply (lim_mono s wa n); [lia|]. apply IHdiag; auto.
    refine (left_sub E _ _ _ _ _ Hd _). intros d Hc. constructor. exact Hc.
  - destruct Hn as (wa & Hn & Hl). apply (lim_mono s wa n); [lia|]. apply IHdiag; auto.
    refine (left_sub E _ _ _ _ _ Hd _). intros d Hc. constructor. exact Hc.
  - destruct Hn as (wa & Hn & Hl). apply (lim_mono s wa n); [lia|]. apply IHdiag; auto.
    refine (left_sub E _ _ _ _ _ Hd _). intros d Hc. constructor. exact Hc.
  - destruct Hn as (wa & Hn & Hl). apply (lim_mono s wa n); [lia|]. apply IHdiag; auto.
    refine (left_sub E _ _ _ _ _ Hd _). intros d Hc. constructor. exact Hc.
  - destruct Hn as (wa & Hn & Hl). apply (lim_mono s wa n); [lia|]. apply IHdiag; auto.
    refine (left_sub E _ _ _ _ _ Hd _). intros d Hc. constructor. exact Hc.
  - (* delay *) destruct r as [|r]; [destruct (Hd d); constructor|].
    assert (Hd' : left_depth E r (E d)) by (apply Hd; constructor).
    assert (K : lim s B r i o) by (apply IHdiag; auto; lia).
    assert (HX : forall e, B * umax + reading r (e - i) <= n * umax + reading (S r) (e - i)).
    { intros e. unfold reading. nia. }
    destruct o as [v j X|[] l X|e]; cbn [lim] in *; auto.
    + destruct (Nat.ltb i j); [specialize (HX j); lia|]. cbn [ubound]. nia.
    + specialize (HX (List.length s)). lia.
    + cbn [ubound]. nia.
Qed.
End ExpLen.
