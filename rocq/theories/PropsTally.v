(** Properties C57 and C60, exactly: the number of calls and their nesting are
    those that the documented rules give. *)
From Verif Require Import PropsPeg TallyCost PropsDiag PropsCost PropsDepth PropsTotal Examples.
From Coq Require Import Lia.

Section Unique.
Context {T : Type} {V : nat -> Type}.
Variable op : nat -> nat -> nat.
Variable E : env T V.
Variable s : list T.
Variable get : loc -> list T -> nat -> loc.
Variable locof : nat -> loc.
Variable lay : Prop.
Hypothesis Hco : cohere get s locof.
Hypothesis Hlay : lay -> exactpos s locof.
Hypothesis HE : forall d, gok lay (E d).
Notation tl := (tally op E s locof).
Notation outcome := (diag E s locof).
Notation gram := (gram T V).

Definition tally_match {A} (g : gram A) (m : Z) (i k : nat) : Prop :=
  match g with
  | GFmap p _ | GMaybe p | GAttempt p | GLabel p _ => exists a, tl _ p m i a /\ k = S a
  | GRecover p | GRecoverWith p _ _ | GRecoverWithFn p _ _ => tl _ p m i k
  | GAlt p q =>
      (exists o a, outcome _ p m i o /\ (forall l X, o <> DFail false l X) /\ tl _ p m i a /\ k = S a) \/
      (exists l X a b, outcome _ p m i (DFail false l X) /\ tl _ p m i a /\ tl _ q m i b /\ k = S (op a b))
  | GBind p f =>
      (exists o a, outcome _ p m i o /\ (forall v j X, o <> DSucc v j X) /\ tl _ p m i a /\ k = S a) \/
      (exists v j X a b, outcome _ p m i (DSucc v j X) /\ tl _ p m i a /\ tl _ (f v) m j b /\ k = S (op a b))
  | GSeq p q _ =>
      (exists o a, outcome _ p m i o /\ (forall v j X, o <> DSucc v j X) /\ tl _ p m i a /\ k = S a) \/
      (exists v j X a b, outcome _ p m i (DSucc v j X) /\ tl _ p m i a /\ tl _ q m j b /\ k = S (op a b))
  | GMany p =>
      (exists o a, outcome _ p m i o /\ (forall v j X, o = DSucc v j X -> ~ i < j) /\ tl _ p m i a /\ k = S a) \/
      (exists v j X a b, outcome _ p m i (DSucc v j X) /\ i < j /\ tl _ p m i a /\ tl _ (GMany p) m j (S b) /\ k = S (op a b))
  | GBlock p => exists a, tl _ p (loc_col (locof i)) i a /\ k = S a
  | GAligned p =>
      (loc_col (locof i) = m /\ exists a, tl _ p m i a /\ k = S a) \/ (loc_col (locof i) <> m /\ k = 1)
  | GIndented d p =>
      (loc_col (locof i) = (m + d)%Z /\ exists a, tl _ p (loc_col (locof i)) i a /\ k = S a) \/
      (loc_col (locof i) <> (m + d)%Z /\ k = 1)
  | GDelay d => exists a, tl _ (E d) m i a /\ k = S a
  | _ => k = 1
  end.
Lemma tally_inv A (g : gram A) m i k : tl A g m i k -> tally_match g m i k.
Proof using.
  intros H. destruct H; cbn; eauto 12.
  destruct g; try reflexivity; destruct H.
Qed.
Lemma det A (g : gram A) m i o o' : gok lay g -> i <= List.length s ->
  outcome A g m i o -> outcome A g m i o' -> o = o'.
Proof using Hco Hlay HE.
  intros Hg Hi H H'.
  set (c := Ctx (T:=T) m (locof i) get).
  assert (Hc : pos_Cok (T:=T) get locof i c) by (split; [reflexivity|right; exists i; auto]).
  pose proof (fun o K => diag_complete E s get locof lay Hco Hlay HE A g m i o K Hg Hi c Hc eq_refl) as HC.
  destruct (HC o H) as [n Hn], (HC o' H') as [n' Hn'].
  apply (DiagProofs.reach_le E s _ _ _ _ _ _ (Nat.max n n')) in Hn; [|lia].
  apply (DiagProofs.reach_le E s _ _ _ _ _ _ (Nat.max n n')) in Hn'; [|lia]. congruence.
Qed.
Lemma ends A (g : gram A) m i v j X : gok lay g -> i <= List.length s ->
  outcome A g m i (DSucc v j X) -> j <= List.length s.
Proof using Hco Hlay HE.
  intros Hg Hi H.
  set (c := Ctx (T:=T) m (locof i) get).
  assert (Hc : pos_Cok (T:=T) get locof i c) by (split; [reflexivity|right; exists i; auto]).
  destruct (diag_complete E s get locof lay Hco Hlay HE A g m i _ H Hg Hi c Hc eq_refl) as [n Hn].
  apply dabs_succ in Hn as (o & Hn & _ & <- & _).
  apply (DiagProofs.good_ok E s get locof lay Hco Hlay HE _ _ _ _ _ _ Hg Hi Hc Hn).
Qed.
Theorem tally_unique A (g : gram A) m i k : tl A g m i k -> gok lay g -> i <= List.length s ->
  forall k', tl A g m i k' -> k' = k.
Proof using Hco Hlay HE.
  assert (D : forall A (g : gram A) m i o o', gok lay g -> i <= List.length s ->
    outcome A g m i o -> outcome A g m i o' -> o = o') by exact det.
  assert (G : forall A (g : gram A) m i v j X, gok lay g -> i <= List.length s ->
    outcome A g m i (DSucc v j X) -> j <= List.length s) by exact ends.
  induction 1; intros Hg Hi k' H'; pose proof Hg as Hg0; apply tally_inv in H'.
  - destruct g; cbn in H'; try exact H'; destruct H.
  all: simpl in Hg0; cbn [tally_match] in H'.
  - destruct H' as (a & H' & ->). f_equal. apply IHtally; auto. apply Hg0.
  - destruct Hg0 as (_ & G1 & G2). destruct H' as [(o' & a & O & N & H' & ->)|(l & X & a & b & O & H' & H'' & ->)].
    + f_equal. apply IHtally; auto.
    + exfalso. exact (H0 _ _ (D _ _ _ _ _ _ G1 Hi H O)).
  - destruct Hg0 as (_ & G1 & G2). destruct H' as [(o' & c & O & N & H' & ->)|(l' & X' & c & d & O & H' & H'' & ->)].
    + exfalso. exact (N _ _ (D _ _ _ _ _ _ G1 Hi O H)).
    + rewrite (IHtally1 G1 Hi _ H'), (IHtally2 G2 Hi _ H''). reflexivity.
  - destruct Hg0 as (_ & G1 & G2). destruct H' as [(o' & a & O & N & H' & ->)|(v & j & X & a & b & O & H' & H'' & ->)].
    + f_equal. apply IHtally; auto.
    + exfalso. exact (H0 _ _ _ (D _ _ _ _ _ _ G1 Hi H O)).
  - destruct Hg0 as (_ & G1 & G2). destruct H' as [(o' & c & O & N & H' & ->)|(v' & j' & X' & c & d & O & H' & H'' & ->)].
    + exfalso. exact (N _ _ _ (D _ _ _ _ _ _ G1 Hi O H)).
    + pose proof (D _ _ _ _ _ _ G1 Hi H O) as K. injection K as <- <- <-.
      rewrite (IHtally1 G1 Hi _ H'), (IHtally2 (G2 _) (G _ _ _ _ _ _ _ G1 Hi H) _ H''). reflexivity.
  - destruct Hg0 as (_ & G1 & G2). destruct H' as [(o' & a & O & N & H' & ->)|(v & j & X & a & b & O & H' & H'' & ->)].
    + f_equal. apply IHtally; auto.
    + exfalso. exact (H0 _ _ _ (D _ _ _ _ _ _ G1 Hi H O)).
  - destruct Hg0 as (_ & G1 & G2). destruct H' as [(o' & c & O & N & H' & ->)|(v' & j' & X' & c & d & O & H' & H'' & ->)].
    + exfalso. exact (N _ _ _ (D _ _ _ _ _ _ G1 Hi O H)).
    + pose proof (D _ _ _ _ _ _ G1 Hi H O) as K. injection K as <- <- <-.
      rewrite (IHtally1 G1 Hi _ H'), (IHtally2 G2 (G _ _ _ _ _ _ _ G1 Hi H) _ H''). reflexivity.
  - destruct H' as (a & H' & ->). f_equal. apply IHtally; auto. apply Hg0.
  - destruct Hg0 as (_ & G1). destruct H' as [(o' & a & O & N & H' & ->)|(v & j & X & a & b & O & L & H' & H'' & ->)].
    + f_equal. apply IHtally; auto.
    + exfalso. exact (H0 _ _ _ (D _ _ _ _ _ _ G1 Hi H O) L).
  - destruct Hg0 as (_ & G1). destruct H' as [(o' & c & O & N & H' & ->)|(v' & j' & X' & c & d & O & L & H' & H'' & ->)].
    + exfalso. exact (N _ _ _ (D _ _ _ _ _ _ G1 Hi O H) H0).
    + pose proof (D _ _ _ _ _ _ G1 Hi H O) as K. injection K as <- <- <-.
      rewrite (IHtally1 G1 Hi _ H'). specialize (IHtally2 Hg (G _ _ _ _ _ _ _ G1 Hi H) _ H''). injection IHtally2 as ->. reflexivity.
  - destruct H' as (a & H' & ->). f_equal. apply IHtally; auto. apply Hg0.
  - destruct H' as (a & H' & ->). f_equal. apply IHtally; auto. apply Hg0.
  - apply IHtally; auto. apply Hg0.
  - apply IHtally; auto. apply Hg0.
  - apply IHtally; auto. apply Hg0.
  - destruct H' as (a & H' & ->). f_equal. apply IHtally; auto. apply Hg0.
  - destruct H' as [(_ & a & H' & ->)|[N _]]; [|contradiction]. f_equal. apply IHtally; auto. apply Hg0.
  - destruct H' as [(N & _)|[_ ->]]; [contradiction|reflexivity].
  - destruct H' as [(_ & a & H' & ->)|[N _]]; [|contradiction]. f_equal. apply IHtally; auto. apply Hg0.
  - destruct H' as [(N & _)|[_ ->]]; [contradiction|reflexivity].
  - destruct H' as (a & H' & ->). f_equal. apply IHtally; auto.
Qed.
End Unique.

(** ** C57: the calls that a plain parse makes are exactly those of the rules *)
Theorem C57_exact :
  forall T V (E : env T V) A (g : gram T V A) s get fmt locof n,
  wf_env E -> wf g -> cohere get s locof -> lay_ok E g s locof ->
  snd (parse_counted E n g s get fmt) <> NoFuel ->
  forall k, tally Nat.add E s locof A g 0 0 k <-> fst (parse_counted E n g s get fmt) = k.
Proof.
  intros T V E A g s get fmt locof n HE Hg Hco Hl H k.
  destruct (lay_gok _ _ _ _ _ HE Hg Hl) as [G1 G2].
  unfold parse_counted in *. cbn [fst snd] in *.
  assert (Hc : pos_Cok (T:=T) get locof 0 (init_ctx get)).
  { apply pos_init. }
  assert (Q : tally Nat.add E s locof A g 0 0 (fst (cfast E n g s 0 (init_ctx get)))).
  { apply (cost_tally E s get locof _ Hco (fun x => x) G2 n A g 0 (init_ctx get) G1 ltac:(lia) Hc).
    intros K. apply H. rewrite K. reflexivity. }
  split; [|intros <-; exact Q]. intros H'. symmetry.
  eapply tally_unique; [exact Hco|intros x; exact x|exact G2|exact Q|exact G1|lia|exact H'].
Qed.
Print Assumptions C57_exact.

(** ** C60: and they nest as deeply as the rules say *)
Theorem C60_exact :
  forall T V (E : env T V) A (g : gram T V A) s get fmt locof n,
  wf_env E -> wf g -> cohere get s locof -> lay_ok E g s locof ->
  snd (parse_nested E n g s get fmt) <> NoFuel ->
  forall k, tally Nat.max E s locof A g 0 0 k <-> fst (parse_nested E n g s get fmt) = k.
Proof.
  intros T V E A g s get fmt locof n HE Hg Hco Hl H k.
  destruct (lay_gok _ _ _ _ _ HE Hg Hl) as [G1 G2].
  unfold parse_nested in *. cbn [fst snd] in *.
  assert (Hc : pos_Cok (T:=T) get locof 0 (init_ctx get)).
  { apply pos_init. }
  assert (Q : tally Nat.max E s locof A g 0 0 (fst (dfast E n g s 0 (init_ctx get)))).
  { apply (depth_tally E s get locof _ Hco (fun x => x) G2 n A g 0 (init_ctx get) G1 ltac:(lia) Hc).
    intros K. apply H. rewrite K. reflexivity. }
  split; [|intros <-; exact Q]. intros H'. symmetry.
  eapply tally_unique; [exact Hco|intros x; exact x|exact G2|exact Q|exact G1|lia|exact H'].
Qed.
Print Assumptions C60_exact.

(** the expression grammar on [1+(2+3)]: 44 calls, 18 deep at most *)
Theorem C57_case_exact : let s := ex_str "1+(2+3)" in
  (forall k, tally Nat.add ex_E s (true_loc s) _ ex_top 0 0 k <-> k = 44) /\
  (forall k, tally Nat.max ex_E s (true_loc s) _ ex_top 0 0 k <-> k = 18).
Proof.
  intros s.
  assert (L : lay_ok ex_E ex_top s (true_loc s)) by (left; apply scannerless_exact).
  split; intros k.
  - pose proof (C57_exact _ _ ex_E _ ex_top s scannerless_get_loc linecol_fmt (true_loc s) 150 ex_wf_E ex_wf
      (scannerless_cohere s) L ltac:(vm_compute; discriminate) k) as K.
    rewrite K. replace (fst (parse_counted ex_E 150 ex_top s scannerless_get_loc linecol_fmt)) with 44 by (vm_compute; reflexivity).
    split; congruence.
  - pose proof (C60_exact _ _ ex_E _ ex_top s scannerless_get_loc linecol_fmt (true_loc s) 150 ex_wf_E ex_wf
      (scannerless_cohere s) L ltac:(vm_compute; discriminate) k) as K.
    rewrite K. replace (fst (parse_nested ex_E 150 ex_top s scannerless_get_loc linecol_fmt)) with 18 by (vm_compute; reflexivity).
    split; congruence.
Qed.
