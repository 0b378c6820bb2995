(** Proofs for C76 (ListSpec.v). *)
From Verif Require Import ApiSpec ApiProofs Locations Fuel Simulation EditSpec EditInv PegSpec PegProofs PropsPeg DiagSpec DiagProofs RecSpec RecProofs
  PropsRec LL Mend PropsMend.
From Verif Require Export ListSpec.
From Coq Require Import Lia.
Import ListNotations.

Definition undiag {A} (o : dres A) : pres A :=
  match o with DSucc v j _ => PSucc v j | DFail b _ _ => PFail b | DExn e => PExn e end.
Lemma undiag_after A i j X (o : dres A) : undiag (d_after i j X o) = after i j (undiag o).
Proof. destruct o as [v k Y|[] l Y|e]; reflexivity. Qed.
Lemma undiag_value A B (f : A -> B) o : undiag (on_dvalue f o) = on_value f (undiag o).
Proof. destruct o; reflexivity. Qed.
Lemma diag_peg T V (E : env T V) s at_ A (g : gram T V A) m i o :
  diag E s at_ A g m i o -> peg E s (fun i => loc_col (at_ i)) A g m i (undiag o).
Proof.
  induction 1; cbn [undiag] in *;
    rewrite ?undiag_value, ?undiag_after;
    try solve [econstructor; eauto].
  - (* alternative *) destruct o as [v k Y|[] l' Y|e]; cbn [undiag d_else] in *; eapply pg_alt_r; eauto.
  - (* label *) destruct o as [v k Y|[] l' Y|e]; cbn [undiag d_label] in *; apply pg_label; assumption.
Qed.

Section Inversion.
Context {T : Type} {V : nat -> Type}.
Variables (E : env T V) (s : list T) (at_ : nat -> loc).
Notation peg := (peg E s (fun i => loc_col (at_ i))).
Notation mend := (mend E s at_).
Notation diag := (diag E s at_).

Definition mend_way {A} (g : gram T V A) (m : Z) (i : nat) (ins : Z) (rem : option Z) (y : mended A) : Prop :=
  match g in Verif.Grammar.gram _ _ A return mended A -> Prop with
  | GEof => fun y => i < List.length s /\ rem <> None /\ y = y_skip ins tt (List.length s) (at_ i) (List.length s - i)
  | @GFmap _ _ B _ p f => fun y => exists y0 w, mend B p m i ins rem y0 /\ f (y_val y0) = Ret w /\ y = y_with y0 w
  | @GSeq _ _ B C _ p q merge => fun y =>
      (exists v j y0, peg B p m i (PSucc v j) /\ mend C q m j ins (if Nat.ltb i j then Some ins else rem) y0 /\ y = y_with y0 (merge v (y_val y0))) \/
      (exists y0, mend B p m i ins rem y0 /\
        ((exists w k, peg C q m (y_pos y0) (PSucc w k) /\ y = y_then_read ins merge y0 w k) \/
         (exists y', mend C q m (y_pos y0) ins (Some (y_left y0)) y' /\ y = y_then_mend merge y0 y')))
  | @GMaybe _ _ B p => fun y => exists y0, mend B p m i ins None y0 /\ y = y_with y0 (Some (y_val y0))
  | @GMany _ _ B p => fun y =>
      (exists v j y0, peg B p m i (PSucc v j) /\ mend _ (GMany p) m j ins None y0 /\ y = y_with y0 (v :: y_val y0)) \/
      (exists y0, mend B p m i ins None y0 /\
        ((exists w k, peg _ (GMany p) m (y_pos y0) (PSucc w k) /\ y = y_then_read ins cons y0 w k) \/
         (exists y', mend _ (GMany p) m (y_pos y0) ins None y' /\ y = y_then_mend cons y0 y')))
  | GAlt p q => fun y =>
      mend _ p m i ins None y \/
      (peg _ p m i (PFail false) /\ mend _ q m i ins None y) \/
      (peg _ p m i (PFail false) /\ peg _ q m i (PFail false))
  | GLabel p _ => fun y => mend _ p m i ins rem y
  | GRecover p => fun y => exists y0, mend _ p m i ins rem y0 /\ y_val y = y_val y0 /\ y_pos y = y_pos y0 /\ y_ops y = y_ops y0
  | GDelay d => fun y => mend _ (E d) m i ins rem y
  | _ => fun _ => True
  end y.
Lemma mend_inv A (g : gram T V A) m i ins rem y : mend A g m i ins rem y -> mend_way g m i ins rem y.
Proof.
  destruct 1; cbn [mend_way]; try exact I; eauto 10.
  repeat split; auto. discriminate.
Qed.

Definition peg_way {A} (g : gram T V A) (m : Z) (i : nat) (v : A) (j : nat) : Prop :=
  match g in Verif.Grammar.gram _ _ A return A -> Prop with
  | @GFmap _ _ B _ p f => fun v => exists w, peg B p m i (PSucc w j) /\ f w = Ret v
  | @GSeq _ _ B C _ p q merge => fun v => exists x y k,
      peg B p m i (PSucc x k) /\ peg C q m k (PSucc y j) /\ v = merge x y
  | @GMaybe _ _ B p => fun v => (v = None /\ peg B p m i (PFail false) /\ j = i) \/ exists x, v = Some x /\ peg B p m i (PSucc x j)
  | @GMany _ _ B p => fun v =>
      (v = [] /\ j = i /\ peg B p m i (PFail false)) \/
      exists x l k, v = x :: l /\ i < k /\ peg B p m i (PSucc x k) /\ peg _ (GMany p) m k (PSucc l j)
  | GAlt p q => fun v => peg _ p m i (PSucc v j) \/ (peg _ p m i (PFail false) /\ peg _ q m i (PSucc v j))
  | GLabel p _ => fun v => peg _ p m i (PSucc v j)
  | GRecover p => fun v => peg _ p m i (PSucc v j)
  | GDelay d => fun v => peg _ (E d) m i (PSucc v j)
  | _ => fun _ => True
  end v.
Lemma peg_inv A (g : gram T V A) m i v j : peg A g m i (PSucc v j) -> peg_way g m i v j.
Proof.
  intros H.
  assert (K : forall A (g : gram T V A) m i o, peg A g m i o ->
    match o with PSucc v j => peg_way g m i v j | _ => True end).
  { clear. intros A g m i o H. destruct H; cbn [peg_way]; try exact I; eauto 10;
      destruct o as [v' k| |]; cbn [after on_value]; try exact I; eauto 10. }
  exact (K _ _ _ _ _ H).
Qed.

Definition open_way {A} (g : gram T V A) (m : Z) (i : nat) : Prop :=
  match g with
  | @GFmap _ _ B _ p f => peg B p m i (PFail false)
  | GAlt p q => peg _ p m i (PFail false) /\ peg _ q m i (PFail false)
  | @GSeq _ _ B C _ p q merge => peg B p m i (PFail false) \/ exists v j, j <= i /\ peg B p m i (PSucc v j) /\ peg C q m j (PFail false)
  | GMaybe _ | GMany _ => False
  | GLabel p _ => peg _ p m i (PFail false)
  | GRecover p => peg _ p m i (PFail false)
  | GRecoverWith p _ _ => peg _ p m i (PFail false)
  | GDelay d => peg _ (E d) m i (PFail false)
  | _ => True
  end.
(** what fails without having read anything *)
Lemma open_inv A (g : gram T V A) m i : peg A g m i (PFail false) -> open_way g m i.
Proof.
  intros H.
  assert (K : forall A (g : gram T V A) m i o, peg A g m i o ->
    (match g with GMany _ => o <> PFail false | _ => True end) /\
    match o with PFail false => open_way g m i | _ => True end).
  { clear. intros A g m i o H. induction H; cbn [open_way]; split; try exact I; try discriminate; try (cbn in *; intuition congruence);
      try (destruct b; cbn in *; intuition congruence); eauto 10;
      try (destruct o as [v' k| [] |e]; cbn [after on_value]; intuition congruence).
    all: try (destruct o as [v' k|[]|e]; cbn [after on_value]; try exact I; destruct (Nat.ltb_spec i j); try exact I; right; eauto 10).
    }
  exact (proj2 (K _ _ _ _ _ H)).
Qed.

Definition diag_way {A} (g : gram T V A) (m : Z) (i : nat) (b : bool) (l : loc) : Prop :=
  match g with
  | @GFmap _ _ B _ p f => exists X, diag B p m i (DFail b l X)
  | @GSeq _ _ B C _ p q merge =>
      (exists X, diag B p m i (DFail b l X)) \/
      exists v j X b' X', diag B p m i (DSucc v j X) /\ diag C q m j (DFail b' l X')
  | @GMaybe _ _ B p => exists X, diag B p m i (DFail true l X)
  | @GMany _ _ B p =>
      (exists X, diag B p m i (DFail true l X)) \/
      exists v j X X', diag B p m i (DSucc v j X) /\ diag _ (GMany p) m j (DFail b l X')
  | GAlt p q => (exists X, diag _ p m i (DFail true l X)) \/
      exists l0 X b' l' X', diag _ p m i (DFail false l0 X) /\ diag _ q m i (DFail b' l' X') /\ (b' = true -> l = l')
  | GLabel p _ => exists X, diag _ p m i (DFail b l X)
  | GRecover p => exists X, diag _ p m i (DFail b l X)
  | GDelay d => exists X, diag _ (E d) m i (DFail b l X)
  | _ => True
  end.
Lemma diag_inv A (g : gram T V A) m i b l X : diag A g m i (DFail b l X) -> diag_way g m i b l.
Proof.
  intros H.
  assert (K : forall A (g : gram T V A) m i o, diag A g m i o ->
    match o with DFail b l X => diag_way g m i b l | _ => True end).
  { clear. intros A g m i o H. destruct H; cbn [diag_way]; try exact I; eauto 10;
      destruct o as [v' k Y|[] l' Y|e]; cbn [d_else d_after d_label on_dvalue]; try exact I; eauto 10;
      try (right; do 5 eexists; split; [eassumption|]; split; [eassumption|]; congruence). }
  exact (K _ _ _ _ _ H).
Qed.
End Inversion.

Section Lists.
Context {T : Type} {V : nat -> Type}.
Variables (E : env T V) (s : list T) (get : loc -> list T -> nat -> loc) (locof : nat -> loc) (lay : Prop).
Hypotheses (Hco : cohere get s locof) (Hlay : lay -> exactpos s locof) (HE : forall d, gok lay (E d)).
Notation len := (List.length s).
Notation peg := (peg E s (fun i => loc_col (locof i))).
Notation mend := (mend E s locof).
Notation diag := (diag E s locof).
Let Cok := pos_Cok (T:=T) get locof.

Definition ctx_at (m : Z) (i : nat) : ctx T := Ctx m (locof i) get.
Lemma ctx_at_ok m i : Cok i (ctx_at m i).
Proof using Type. split; [reflexivity|]. right. exists i. auto. Qed.

(** what is read runs *)
Lemma peg_run A (g : gram T V A) m i v j : peg A g m i (PSucc v j) -> gok lay g -> i <= len ->
  forall ins rem, exists n o, full E n g s i (ctx_at m i) ins rem = Ret (ROk o) /\ ok_val o = v /\ ok_pos o = j.
Proof using Hco Hlay HE.
  intros H Hg Hi ins rem.
  destruct (peg_complete E s get locof lay Hco Hlay HE A g m i _ H Hg Hi _ (ctx_at_ok m i) eq_refl) as [n Hn].
  apply abs_succ in Hn as (o & Hn & <- & <-). exists n, o. split; auto.
  pose proof (sim_fast_full E n A g s i (ctx_at m i) ins rem) as S'. rewrite Hn in S'. cbn in S'. auto.
Qed.
Lemma peg_le A (g : gram T V A) m i v j : peg A g m i (PSucc v j) -> gok lay g -> i <= len -> i <= j <= len.
Proof using Hco Hlay HE.
  intros H Hg Hi. destruct (peg_run _ _ _ _ _ _ H Hg Hi 0%Z None) as (n & o & R & _ & <-).
  pose proof (fgood E s get locof lay Hco Hlay HE n A g i _ _ _ _ Hg Hi (ctx_at_ok m i) R) as G. apply G.
Qed.
Lemma peg_det A (g : gram T V A) m i o o' : peg A g m i o -> peg A g m i o' -> gok lay g -> i <= len -> o = o'.
Proof using Hco Hlay HE.
  intros H H' Hg Hi.
  destruct (peg_complete E s get locof lay Hco Hlay HE A g m i _ H Hg Hi _ (ctx_at_ok m i) eq_refl) as [n Hn].
  destruct (peg_complete E s get locof lay Hco Hlay HE A g m i _ H' Hg Hi _ (ctx_at_ok m i) eq_refl) as [n' Hn'].
  assert (K : fast E n g s i (ctx_at m i) = fast E n' g s i (ctx_at m i)).
  { apply fast_agree; intros K; rewrite K in *; discriminate. }
  rewrite K in Hn. congruence.
Qed.
(** what is read needs no mending *)
Lemma peg_no_mend A (g : gram T V A) m i v j ins rem y : peg A g m i (PSucc v j) -> gok lay g -> i <= len ->
  ~ mend A g m i ins rem y.
Proof using Hco Hlay HE.
  intros H Hg Hi M. destruct (peg_run _ _ _ _ _ _ H Hg Hi ins rem) as (n & o & R & _).
  destruct (mend_offered E s get locof lay Hco Hlay HE A g m i ins rem y M Hg Hi n _ _ (ctx_at_ok m i) eq_refl R) as (rc & rep & Q & _).
  discriminate.
Qed.
Lemma open_no_mend A (g : gram T V A) m i ins y : peg A g m i (PFail false) -> gok lay g -> i <= len ->
  ~ mend A g m i ins None y.
Proof using Hco Hlay HE.
  intros H Hg Hi M.
  destruct (peg_complete E s get locof lay Hco Hlay HE A g m i _ H Hg Hi _ (ctx_at_ok m i) eq_refl) as [n Hn].
  apply abs_fail in Hn as (e & Hn & He).
  pose proof (sim_fast_full E n A g s i (ctx_at m i) ins None) as S'. rewrite Hn in S'. cbn in S'. rewrite He in S'.
  destruct (mend_offered E s get locof lay Hco Hlay HE A g m i ins None y M Hg Hi n _ _ (ctx_at_ok m i) eq_refl S') as (rc & rep & Q & _).
  discriminate.
Qed.
Lemma diag_run A (g : gram T V A) m i o : diag A g m i o -> gok lay g -> i <= len ->
  exists n, dabs (fast E n g s i (ctx_at m i)) = Some o.
Proof using Hco Hlay HE.
  intros H Hg Hi. apply (diag_complete E s get locof lay Hco Hlay HE A g m i o H Hg Hi _ (ctx_at_ok m i) eq_refl).
Qed.
(** the place of a failure is not before the start *)
Lemma diag_not_before A (g : gram T V A) m i b l X : diag A g m i (DFail b l X) -> gok lay g -> i <= len ->
  exists j, i <= j <= len /\ l = locof j.
Proof using Hco Hlay HE.
  intros H Hg Hi. destruct (diag_run _ _ _ _ _ H Hg Hi) as [n Hn]. apply dabs_fail in Hn as (e & Hn & He).
  pose proof (fast_good E s _ _ _ _ (pos_system s get locof lay Hco Hlay) HE n A g i _ _ Hg Hi (ctx_at_ok m i) Hn) as G. cbn in G.
  destruct G as (j & Hj & L). unfold pos_locrel in L. exists j. split; auto. destruct He as (_ & <- & _). auto.
Qed.
Lemma diag_read A (g : gram T V A) m i v j : peg A g m i (PSucc v j) -> gok lay g -> i <= len ->
  exists X, diag A g m i (DSucc v j X).
Proof using Hco Hlay HE.
  intros H Hg Hi.
  destruct (peg_complete E s get locof lay Hco Hlay HE A g m i _ H Hg Hi _ (ctx_at_ok m i) eq_refl) as [n Hn].
  apply abs_succ in Hn as (o & Hn & <- & <-).
  assert (D : dabs (fast E n g s i (ctx_at m i)) = dabs (Ret (SOk o))) by (rewrite Hn; reflexivity). cbn in D.
  eexists. eapply (diag_sound E s get locof lay Hco Hlay HE n A g i (ctx_at m i)); eauto. apply ctx_at_ok.
Qed.
Lemma diag_det A (g : gram T V A) m i o o' : diag A g m i o -> diag A g m i o' -> gok lay g -> i <= len -> o = o'.
Proof using Hco Hlay HE.
  intros H H' Hg Hi. destruct (diag_run _ _ _ _ _ H Hg Hi) as [n Hn], (diag_run _ _ _ _ _ H' Hg Hi) as [n' Hn'].
  assert (K : fast E n g s i (ctx_at m i) = fast E n' g s i (ctx_at m i)).
  { apply fast_agree; intros K; rewrite K in *; discriminate. }
  rewrite K in Hn. congruence.
Qed.

(** where the operations of a mend are *)
Definition within {A} (i : nat) (y : mended A) : Prop :=
  i <= y_pos y <= len /\ Forall (fun o : rop * loc => exists j, i <= j <= len /\ snd o = locof j) (y_ops y).
Lemma within_le {A} i j (y : mended A) : i <= j -> within j y -> within i y.
Proof using Type.
  intros L [K1 K2]. split; [lia|]. eapply Forall_impl; [|exact K2]. intros o (p & Q & ->). exists p. split; auto. lia.
Qed.
Lemma within_with {A B} i (y : mended A) (w : B) : within i y -> within i (y_with y w).
Proof using Type. exact (fun H => H). Qed.
Lemma within_read {A B C} i (f : A -> B -> C) ins (y : mended A) w k : within i y -> y_pos y <= k <= len -> within i (y_then_read ins f y w k).
Proof using Type. intros [K1 K2] L. split; auto. cbn. lia. Qed.
Lemma within_mend {A B C} i (f : A -> B -> C) (y : mended A) (y' : mended B) : within i y -> within (y_pos y) y' -> within i (y_then_mend f y y').
Proof using Type.
  intros W W'. assert (W2 : within i y') by (apply (within_le i (y_pos y)); auto; apply W). split; cbn.
  - apply W2.
  - apply Forall_app. split; [apply W|apply W2].
Qed.
Lemma within_one {A} i (y : mended A) o : i <= y_pos y <= len -> y_ops y = [(o, locof i)] -> within i y.
Proof using Type. intros L Q. split; auto. rewrite Q. constructor; [exists i; split; [lia|reflexivity]|constructor]. Qed.

Lemma mend_within A (g : gram T V A) m i ins rem y : mend A g m i ins rem y -> gok lay g -> i <= len -> within i y.
Proof using Hco Hlay HE.
  induction 1; intros Hg Hi; pose proof Hg as Hg0; pose proof (gall_node _ _ _ Hg) as [Hwf _]; cbn in Hwf;
    try (cbn in Hg; destruct Hg as [_ Hg]);
    try (eapply within_one; [|reflexivity]; cbn; lia);
    try (apply within_with); auto.
  - eapply within_one; [|reflexivity]. destruct H0 as (N & _). cbn. lia.
  - eapply within_one; [|reflexivity]. destruct H0 as (N & _). cbn. lia.
  - eapply within_one; [|reflexivity]. destruct H0 as (N & N2 & _). cbn. unfold lit_hit in N2.
    pose proof (starts_within teq x s j N2 ltac:(lia)). lia.
  - eapply within_one; [|reflexivity]. destruct H0 as (N & N2 & _). cbn. unfold re_hit in N2. cbn in N2. specialize (Hwf s j e (Some v) ltac:(lia) N2). lia.
  - apply IHmend; apply Hg || auto.
  - apply IHmend; apply Hg || auto.
  - apply IHmend; apply Hg || auto.
  - apply IHmend; apply Hg || auto.
  - pose proof (peg_le _ _ _ _ _ _ H (proj1 Hg) Hi) as L. apply (within_le i j); [lia|]. apply IHmend; [apply Hg|lia].
  - specialize (IHmend (proj1 Hg) Hi). apply within_read; auto. apply (peg_le _ _ _ _ _ _ H0); [apply Hg|apply IHmend].
  - specialize (IHmend1 (proj1 Hg) Hi). apply within_mend; auto. apply IHmend2; [apply Hg|apply IHmend1].
  - pose proof (peg_le _ _ _ _ _ _ H (proj1 Hg) Hi) as L. apply (within_le i j); [lia|]. apply IHmend; [apply Hg|lia].
  - specialize (IHmend (proj1 Hg) Hi). apply within_read; auto. apply (peg_le _ _ _ _ _ _ H0); [apply Hg|apply IHmend].
  - specialize (IHmend1 (proj1 Hg) Hi). apply within_mend; auto. apply IHmend2; [apply Hg|apply IHmend1].
  - pose proof (peg_le _ _ _ _ _ _ H Hg Hi) as L. apply (within_le i j); [lia|]. apply IHmend; [exact Hg0|lia].
  - specialize (IHmend Hg Hi). apply within_read; auto. apply (peg_le _ _ _ _ _ _ H0); [exact Hg0|apply IHmend].
  - specialize (IHmend1 Hg Hi). apply within_mend; auto. apply IHmend2; [exact Hg0|apply IHmend1].
Qed.

(** ** Repetitions *)
Notation reads p m i v j := (peg _ p m i (PSucc v j)).
Notation items := (items E s locof).
Notation more_items := (more_items E s locof).

Lemma items_le A (p : gram T V A) m i vs k : items p m i vs k -> gok lay p -> i <= len -> i <= k <= len.
Proof using Hco Hlay HE.
  induction 1; intros Hg Hi; [lia|]. pose proof (peg_le _ _ _ _ _ _ H0 Hg Hi). specialize (IHitems Hg ltac:(lia)). lia.
Qed.
Lemma many_gok A (p : gram T V A) : gok lay p -> gok lay (GMany p).
Proof using Type. intros H. split; [split; [exact I|intros []]|exact H]. Qed.

Lemma many_kept A (p : gram T V A) m i vs k : items p m i vs k -> gok lay p -> i <= len ->
  forall ins rem y, mend _ (GMany p) m i ins rem y -> exists w, y_val y = vs ++ w /\ within k y.
Proof using Hco Hlay HE.
  induction 1; intros Hg Hi ins rem y M.
  - exists (y_val y). split; [reflexivity|]. apply (mend_within _ _ _ _ _ _ _ M (many_gok _ _ Hg) Hi).
  - pose proof (peg_le _ _ _ _ _ _ H0 Hg Hi) as L. apply mend_inv in M as [(v' & j' & y0 & R & M & ->)|(y0 & M & _)].
    + pose proof (peg_det _ _ _ _ _ _ H0 R Hg Hi) as Q. injection Q as <- <-.
      destruct (IHitems Hg ltac:(lia) _ _ _ M) as (w & Q & W). exists w. cbn. rewrite Q. split; auto.
    + destruct (peg_no_mend _ _ _ _ _ _ _ _ _ H0 Hg Hi M).
Qed.
Lemma many_kept_peg A (p : gram T V A) m i vs k : items p m i vs k -> gok lay p -> i <= len ->
  forall v j, peg _ (GMany p) m i (PSucc v j) -> exists w, v = vs ++ w /\ k <= j <= len.
Proof using Hco Hlay HE.
  induction 1; intros Hg Hi u e P.
  - exists u. split; [reflexivity|]. apply (peg_le _ _ _ _ _ _ P (many_gok _ _ Hg) Hi).
  - pose proof (peg_le _ _ _ _ _ _ H0 Hg Hi) as L. apply peg_inv in P as [(_ & _ & P)|(v' & l & j' & -> & _ & R & P)].
    + pose proof (peg_det _ _ _ _ _ _ H0 P Hg Hi). discriminate.
    + pose proof (peg_det _ _ _ _ _ _ H0 R Hg Hi) as Q. injection Q as <- <-.
      destruct (IHitems Hg ltac:(lia) _ _ P) as (w & -> & W). exists w. split; auto.
Qed.
Lemma many_kept_diag A (p : gram T V A) m i vs k : items p m i vs k -> gok lay p -> i <= len ->
  forall b l X, diag _ (GMany p) m i (DFail b l X) -> exists j, k <= j <= len /\ l = locof j.
Proof using Hco Hlay HE.
  induction 1; intros Hg Hi b l X D.
  - apply (diag_not_before _ _ _ _ _ _ _ D (many_gok _ _ Hg) Hi).
  - pose proof (peg_le _ _ _ _ _ _ H0 Hg Hi) as L. destruct (diag_read _ _ _ _ _ _ H0 Hg Hi) as [X0 R0].
    apply diag_inv in D as [(X' & D)|(v' & j' & X1 & X2 & R & D)].
    + pose proof (diag_det _ _ _ _ _ _ R0 D Hg Hi). discriminate.
    + pose proof (diag_det _ _ _ _ _ _ R0 R Hg Hi) as Q. injection Q as <- <- _.
      apply (IHitems Hg ltac:(lia) _ _ _ D).
Qed.

(** ** A parser [g] whose beginning is read without a mistake: [P] holds of the value, and errors come after [k] *)
Definition keeps {A} (g : gram T V A) m i (P : A -> Prop) (k : nat) : Prop :=
  (forall v j, peg A g m i (PSucc v j) -> P v /\ k <= j) /\
  (forall b l X, diag A g m i (DFail b l X) -> exists j, k <= j <= len /\ l = locof j) /\
  (forall ins rem y, mend A g m i ins rem y -> P (y_val y) /\ within k y).

Lemma keeps_many A (p : gram T V A) m i vs k : items p m i vs k -> gok lay p -> i <= len ->
  keeps (GMany p) m i (fun v => exists w, v = vs ++ w) k.
Proof using Hco Hlay HE.
  intros H Hg Hi. split; [|split].
  - intros v j P. destruct (many_kept_peg _ _ _ _ _ _ H Hg Hi _ _ P) as (w & -> & L). split; [eauto|lia].
  - intros b l X D. apply (many_kept_diag _ _ _ _ _ _ H Hg Hi _ _ _ D).
  - intros ins rem y M. destruct (many_kept _ _ _ _ _ _ H Hg Hi _ _ _ M) as (w & -> & W). eauto.
Qed.
(** the first part keeps its value *)
Lemma keeps_l A B (p : gram T V A) (q : gram T V B) m i P k : keeps p m i P k -> gok lay p -> gok lay q -> i <= len ->
  keeps (seql p q) m i P k.
Proof using Hco Hlay HE.
  intros (K1 & K2 & K3) Hp Hq Hi. unfold seql. split; [|split].
  - intros v j R. apply peg_inv in R as (x & y & e & R & R' & ->). destruct (K1 _ _ R). split; auto.
    pose proof (peg_le _ _ _ _ _ _ R Hp Hi). pose proof (peg_le _ _ _ _ _ _ R' Hq ltac:(lia)). lia.
  - intros b l X D. apply diag_inv in D as [(X' & D)|(v & j & X1 & b' & X2 & D1 & D2)]; [eauto|].
    pose proof (diag_peg _ _ _ _ _ _ _ _ _ _ D1) as R. cbn in R. destruct (K1 _ _ R) as [_ L].
    pose proof (peg_le _ _ _ _ _ _ R Hp Hi). destruct (diag_not_before _ _ _ _ _ _ _ D2 Hq ltac:(lia)) as (e & L' & ->). exists e. split; auto. lia.
  - intros ins rem y M. apply mend_inv in M as [(v & j & y0 & R & M & ->)|(y0 & M & [(w & e & R & ->)|(y' & M' & ->)])].
    + destruct (K1 _ _ R) as [HP L]. pose proof (peg_le _ _ _ _ _ _ R Hp Hi). split; [exact HP|]. apply within_with.
      apply (within_le k j); auto. apply (mend_within _ _ _ _ _ _ _ M Hq). lia.
    + destruct (K3 _ _ _ M) as [HP W]. split; [exact HP|]. apply within_read; auto. apply (peg_le _ _ _ _ _ _ R Hq). apply W.
    + destruct (K3 _ _ _ M) as [HP W]. split; [exact HP|]. apply within_mend; auto. apply (mend_within _ _ _ _ _ _ _ M' Hq). apply W.
Qed.
(** after a first part that is read, the rest keeps its values *)
Lemma keeps_r A B C (p : gram T V A) (q : gram T V B) (merge : A -> B -> C) m i v j P k : peg A p m i (PSucc v j) -> keeps q m j P k ->
  gok lay p -> gok lay q -> i <= len -> keeps (GSeq p q merge) m i (fun u => exists w, P w /\ u = merge v w) k.
Proof using Hco Hlay HE.
  intros H (K1 & K2 & K3) Hp Hq Hi. pose proof (peg_le _ _ _ _ _ _ H Hp Hi) as L. split; [|split].
  - intros u e R. apply peg_inv in R as (x & y & e' & R & R' & ->). pose proof (peg_det _ _ _ _ _ _ H R Hp Hi) as Q. injection Q as <- <-.
    destruct (K1 _ _ R'). eauto.
  - intros b l X D. destruct (diag_read _ _ _ _ _ _ H Hp Hi) as [X0 R0]. apply diag_inv in D as [(X' & D)|(v' & j' & X1 & b' & X2 & D1 & D2)].
    + pose proof (diag_det _ _ _ _ _ _ R0 D Hp Hi). discriminate.
    + pose proof (diag_det _ _ _ _ _ _ R0 D1 Hp Hi) as Q. injection Q as <- <- _. eauto.
  - intros ins rem y M. apply mend_inv in M as [(v' & j' & y0 & R & M & ->)|(y0 & M & _)].
    + pose proof (peg_det _ _ _ _ _ _ H R Hp Hi) as Q. injection Q as <- <-. destruct (K3 _ _ _ M) as [HP W]. cbn. eauto.
    + destruct (peg_no_mend _ _ _ _ _ _ _ _ _ H Hp Hi M).
Qed.
Lemma keeps_fmap A B (p : gram T V A) (f : A -> out B) m i (P : A -> Prop) (Q : B -> Prop) k : keeps p m i P k ->
  (forall v w, P v -> f v = Ret w -> Q w) -> keeps (GFmap p f) m i Q k.
Proof using Type.
  intros (K1 & K2 & K3) HQ. split; [|split].
  - intros v j R. apply peg_inv in R as (w & R & F). destruct (K1 _ _ R). eauto.
  - intros b l X D. apply diag_inv in D as (X' & D). eauto.
  - intros ins rem y M. apply mend_inv in M as (y0 & w & M & F & ->). destruct (K3 _ _ _ M). cbn. eauto.
Qed.
(** an optional part that is there *)
Lemma keeps_maybe A (p : gram T V A) m i P k : keeps p m i P k -> ~ peg A p m i (PFail false) ->
  keeps (GMaybe p) m i (fun u => exists v, u = Some v /\ P v) k.
Proof using Type.
  intros (K1 & K2 & K3) HN. split; [|split].
  - intros v j R. apply peg_inv in R as [(_ & R & _)|(x & -> & R)]; [contradiction|]. destruct (K1 _ _ R). eauto.
  - intros b l X D. apply diag_inv in D as (X' & D). eauto.
  - intros ins rem y M. apply mend_inv in M as (y0 & M & ->). destruct (K3 _ _ _ M). cbn. eauto.
Qed.

(** a parser keeps nothing before its start *)
Lemma keeps_start A (g : gram T V A) m i : gok lay g -> i <= len -> keeps g m i (fun _ => True) i.
Proof using Hco Hlay HE.
  intros Hg Hi. split; [|split].
  - intros v j R. split; auto. apply (peg_le _ _ _ _ _ _ R Hg Hi).
  - intros b l X D. apply (diag_not_before _ _ _ _ _ _ _ D Hg Hi).
  - intros ins rem y M. split; auto. apply (mend_within _ _ _ _ _ _ _ M Hg Hi).
Qed.
Lemma keeps_impl A (g : gram T V A) m i (P Q : A -> Prop) k : keeps g m i P k -> (forall v, P v -> Q v) -> keeps g m i Q k.
Proof using Type.
  intros (K1 & K2 & K3) HI. split; [|split]; auto.
  - intros v j R. destruct (K1 _ _ R). auto.
  - intros ins rem y M. destruct (K3 _ _ _ M). auto.
Qed.

Lemma after_read A (i j : nat) (v : A) k : after i j (PSucc v k) = PSucc v k.
Proof using Type. reflexivity. Qed.
Lemma more_items_items A B (p : gram T V A) (sep : gram T V B) m i vs k : more_items p sep m i vs k -> items (seqr sep p) m i vs k.
Proof using Type.
  induction 1; econstructor; eauto. unfold seqr.
  exact (pg_seq E s _ B A A sep p (fun _ r => r) m i w i' _ H0 H1).
Qed.
Lemma many_fail_committed A (g : gram T V A) m i o : peg A g m i o ->
  match g with GMany _ => o <> PFail false | _ => True end.
Proof using Type. induction 1; try exact I; try discriminate; cbn in *; congruence. Qed.
Lemma seq_fail_open A B C (p : gram T V A) (q : gram T V B) (merge : A -> B -> C) m i :
  peg C (GSeq p q merge) m i (PFail false) ->
  peg A p m i (PFail false) \/ exists v j, peg A p m i (PSucc v j) /\ peg B q m j (PFail false).
Proof using Type.
  intros H.
  assert (K : forall A (g : gram T V A) m i o, peg A g m i o -> o = PFail false ->
    match g with
    | @GSeq _ _ A B C p q merge => peg A p m i (PFail false) \/ exists v j, peg A p m i (PSucc v j) /\ peg B q m j (PFail false)
    | _ => True end).
  { clear. intros A g m i o H Q. destruct H; try exact I.
    - right. exists v, j. split; auto. destruct o as [v' k|[]|e]; cbn in Q; try discriminate. auto.
    - left. injection Q as ->. auto.
    - discriminate. }
  exact (K _ _ _ _ _ H eq_refl).
Qed.
Lemma sep_gok A B (p : gram T V A) (sep : gram T V B) : gok lay (sep_by p sep) -> gok lay p /\ gok lay sep.
Proof using Type. unfold sep_by, seq, seqr. intros (_ & _ & _ & H & _ & _ & H' & _). auto. Qed.
Lemma gok_seq A B C (p : gram T V A) (q : gram T V B) (f : A -> B -> C) : gok lay p -> gok lay q -> gok lay (GSeq p q f).
Proof using Type. intros H H'. split; [split; [exact I|intros []]|auto]. Qed.

Lemma keeps_sep A B (p : gram T V A) (sep : gram T V B) m i vs k : sep_items E s locof p sep m i vs k -> gok lay (sep_by p sep) -> i <= len ->
  keeps (sep_by p sep) m i (fun v => exists w, v = vs ++ w) k.
Proof using Hco Hlay HE.
  intros H Hg Hi. destruct (sep_gok _ _ _ _ Hg) as [Hp Hs]. destruct H as [i|i v j vs k R M].
  - eapply keeps_impl; [apply keeps_start; auto|]. intros v _. exists v. reflexivity.
  - pose proof (peg_le _ _ _ _ _ _ R Hp Hi) as L.
    assert (Gs : gok lay (seqr sep p)) by (apply gok_seq; auto).
    unfold sep_by. eapply keeps_fmap.
    + apply keeps_maybe.
      * eapply keeps_r; eauto; [|apply many_gok; exact Gs]. apply keeps_many; eauto; [apply more_items_items; eauto|lia].
      * intros F. unfold seq in F. apply seq_fail_open in F as [F|(v' & j' & _ & F)].
        -- pose proof (peg_det _ _ _ _ _ _ R F Hp Hi). discriminate.
        -- apply many_fail_committed in F. congruence.
    + cbn. intros u w (x & -> & l & (w0 & ->) & ->) Q. injection Q as <-. exists w0. reflexivity.
Qed.

(** ** A list that ends too early *)
Lemma items_read A (p : gram T V A) m i vs k : items p m i vs k -> peg A p m k (PFail false) -> peg _ (GMany p) m i (PSucc vs k).
Proof using Type.
  induction 1; intros F; [apply pg_many_stop; auto|]. eapply pg_many_more; eauto.
Qed.
(** ** Pieces *)
Lemma pieces_mend A (p : gram T V A) m ins i c k : pieces E s locof p m ins i c k -> peg A p m k (PFail false) ->
  (c = 0 /\ exists vs, peg _ (GMany p) m i (PSucc vs k)) \/
  (0 < c /\ exists vs ops, forall rem, exists y, mend _ (GMany p) m i ins rem y /\ y_cost y = c /\ y_pos y = k /\ y_val y = vs /\ y_ops y = ops).
Proof using Type.
  induction 1; intros F.
  - left. split; auto. exists []. apply pg_many_stop. auto.
  - destruct (IHpieces F) as [(-> & vs & R)|(L & vs & ops & M)].
    + left. split; auto. exists (v :: vs). eapply pg_many_more; eauto.
    + right. split; auto. exists (v :: vs), ops. intros rem. destruct (M None) as (y & M1 & <- & <- & <- & <-).
      eexists. split; [eapply md_many_more; eauto|]. cbn. auto.
  - right. assert (C : 0 < y_cost y).
    { destruct (mend_cost _ _ _ _ _ _ _ _ _ _ H) as (N & P & ->). destruct (y_ops y) as [|[o l] ops]; [congruence|].
      inversion P as [|? ? P1 _]. subst. unfold ops_cost. cbn in *. lia. }
    split; [lia|]. destruct (IHpieces F) as [(-> & vs & R)|(L & vs & ops & M)].
    + exists (y_val y :: vs), (y_ops y). intros rem. eexists. split; [eapply md_many_1; eauto|]. cbn. repeat split; auto.
    + exists (y_val y :: vs), (y_ops y ++ ops). intros rem. destruct (M None) as (y' & M1 & <- & <- & <- & <-).
      eexists. split; [eapply md_many_12; eauto|]. cbn. auto.
Qed.

(** ** More contexts *)
Definition firm {A} (g : gram T V A) m i : Prop := ~ peg A g m i (PFail false).
Lemma keeps_seq_l A B C (p : gram T V A) (q : gram T V B) (f : A -> B -> C) m i P k : keeps p m i P k -> gok lay p -> gok lay q -> i <= len ->
  keeps (GSeq p q f) m i (fun u => exists a b, P a /\ u = f a b) k.
Proof using Hco Hlay HE.
  intros (K1 & K2 & K3) Hp Hq Hi. split; [|split].
  - intros v j R. apply peg_inv in R as (x & y & e & R & R' & ->). destruct (K1 _ _ R). split; [eauto|].
    pose proof (peg_le _ _ _ _ _ _ R Hp Hi). pose proof (peg_le _ _ _ _ _ _ R' Hq ltac:(lia)). lia.
  - intros b l X D. apply diag_inv in D as [(X' & D)|(v & j & X1 & b' & X2 & D1 & D2)]; [eauto|].
    pose proof (diag_peg _ _ _ _ _ _ _ _ _ _ D1) as R. cbn in R. destruct (K1 _ _ R) as [_ L].
    pose proof (peg_le _ _ _ _ _ _ R Hp Hi). destruct (diag_not_before _ _ _ _ _ _ _ D2 Hq ltac:(lia)) as (e & L' & ->). exists e. split; auto. lia.
  - intros ins rem y M. apply mend_inv in M as [(v & j & y0 & R & M & ->)|(y0 & M & [(w & e & R & ->)|(y' & M' & ->)])].
    + destruct (K1 _ _ R) as [HP L]. pose proof (peg_le _ _ _ _ _ _ R Hp Hi). split; [cbn; eauto|]. apply within_with.
      apply (within_le k j); auto. apply (mend_within _ _ _ _ _ _ _ M Hq). lia.
    + destruct (K3 _ _ _ M) as [HP W]. split; [cbn; eauto|]. apply within_read; auto. apply (peg_le _ _ _ _ _ _ R Hq). apply W.
    + destruct (K3 _ _ _ M) as [HP W]. split; [cbn; eauto|]. apply within_mend; auto. apply (mend_within _ _ _ _ _ _ _ M' Hq). apply W.
Qed.
Lemma keeps_read A (g : gram T V A) m i v j : peg A g m i (PSucc v j) -> gok lay g -> i <= len -> keeps g m i (fun u => u = v) j.
Proof using Hco Hlay HE.
  intros H Hg Hi. split; [|split].
  - intros u e R. pose proof (peg_det _ _ _ _ _ _ H R Hg Hi) as Q. injection Q as <- <-. auto.
  - intros b l X D. destruct (diag_read _ _ _ _ _ _ H Hg Hi) as [X0 R0]. pose proof (diag_det _ _ _ _ _ _ R0 D Hg Hi). discriminate.
  - intros ins rem y M. destruct (peg_no_mend _ _ _ _ _ _ _ _ _ H Hg Hi M).
Qed.
Lemma keeps_alt_l A (p q : gram T V A) m i P k : keeps p m i P k -> firm p m i -> keeps (GAlt p q) m i P k.
Proof using Type.
  intros (K1 & K2 & K3) F. split; [|split].
  - intros v j R. apply peg_inv in R as [R|[R _]]; [eauto|contradiction].
  - intros b l X D. apply diag_inv in D as [(X' & D)|(l0 & X0 & b' & l' & X' & D & _)]; [eauto|]. apply diag_peg in D. contradiction.
  - intros ins rem y M. apply mend_inv in M as [M|[[R _]|[R _]]]; [eauto|contradiction|contradiction].
Qed.
Lemma keeps_alt_r A (p q : gram T V A) m i P k : peg A p m i (PFail false) -> keeps q m i P k -> firm q m i -> gok lay p -> i <= len ->
  keeps (GAlt p q) m i P k.
Proof using Hco Hlay HE.
  intros Fp (K1 & K2 & K3) F Hp Hi. split; [|split].
  - intros v j R. apply peg_inv in R as [R|[_ R]]; [|eauto]. pose proof (peg_det _ _ _ _ _ _ Fp R Hp Hi). discriminate.
  - intros b l X D. apply diag_inv in D as [(X' & D)|(l0 & X0 & b' & l' & X' & D & D' & Q)].
    + apply diag_peg in D. pose proof (peg_det _ _ _ _ _ _ Fp D Hp Hi). discriminate.
    + destruct b'; [rewrite (Q eq_refl); eauto|]. apply diag_peg in D'. contradiction.
  - intros ins rem y M. apply mend_inv in M as [M|[[_ M]|[_ R]]]; [|eauto|contradiction].
    destruct (open_no_mend _ _ _ _ _ _ Fp Hp Hi M).
Qed.
Lemma keeps_label A (p : gram T V A) x m i P k : keeps p m i P k -> keeps (GLabel p x) m i P k.
Proof using Type.
  intros (K1 & K2 & K3). split; [|split].
  - intros v j R. apply peg_inv in R. eauto.
  - intros b l X D. apply diag_inv in D as (X' & D). eauto.
  - intros ins rem y M. apply mend_inv in M. eauto.
Qed.
Lemma keeps_recover A (p : gram T V A) m i P k : keeps p m i P k -> keeps (GRecover p) m i P k.
Proof using Type.
  intros (K1 & K2 & K3). split; [|split].
  - intros v j R. apply peg_inv in R. eauto.
  - intros b l X D. apply diag_inv in D as (X' & D). eauto.
  - intros ins rem y M. apply mend_inv in M as (y0 & M & Q1 & Q2 & Q3). destruct (K3 _ _ _ M) as [HP W]. rewrite Q1. split; auto.
    destruct W. split; [rewrite Q2|rewrite Q3]; auto.
Qed.
Lemma keeps_delay d m i P k : keeps (E d) m i P k -> keeps (GDelay d) m i P k.
Proof using Type.
  intros (K1 & K2 & K3). split; [|split].
  - intros v j R. apply peg_inv in R. eauto.
  - intros b l X D. apply diag_inv in D as (X' & D). eauto.
  - intros ins rem y M. apply mend_inv in M. eauto.
Qed.
(** a repetition in the middle of an item *)
Lemma keeps_many_in A (p : gram T V A) m i vs k0 : items p m i vs k0 -> forall P k, keeps p m k0 P k -> firm p m k0 -> gok lay p -> i <= len ->
  keeps (GMany p) m i (fun v => exists x l, v = vs ++ x :: l /\ P x) k.
Proof using Hco Hlay HE.
  induction 1 as [i|i v j vs k0 Lt R I IH]; intros P k HK HF Hp Hi.
  - pose proof HK as (K1 & K2 & K3). split; [|split].
    + intros v j R. apply peg_inv in R as [(_ & _ & R)|(x & l & e & -> & _ & R & R')]; [contradiction|].
      destruct (K1 _ _ R). pose proof (peg_le _ _ _ _ _ _ R Hp Hi) as L. pose proof (peg_le _ _ _ _ _ _ R' (many_gok _ _ Hp) ltac:(lia)).
      split; [exists x, l; auto|lia].
    + intros b l X D. apply diag_inv in D as [(X' & D)|(v & j & X0 & X' & D & D')]; [eauto|].
      pose proof (diag_peg _ _ _ _ _ _ _ _ _ _ D) as R. cbn in R. destruct (K1 _ _ R). pose proof (peg_le _ _ _ _ _ _ R Hp Hi) as L.
      destruct (diag_not_before _ _ _ _ _ _ _ D' (many_gok _ _ Hp) ltac:(lia)) as (e & L' & ->). exists e. split; auto. lia.
    + intros ins rem y M. apply mend_inv in M as [(v' & j' & y0 & R & M & ->)|(y0 & M & [(w & e & R & ->)|(y' & M' & ->)])].
      * destruct (K1 _ _ R) as [HP L]. pose proof (peg_le _ _ _ _ _ _ R Hp Hi). split; [cbn; eauto|]. apply within_with.
        apply (within_le k j'); auto. apply (mend_within _ _ _ _ _ _ _ M (many_gok _ _ Hp)). lia.
      * destruct (K3 _ _ _ M) as [HP W]. split; [cbn; eauto|]. apply within_read; auto. apply (peg_le _ _ _ _ _ _ R (many_gok _ _ Hp)). apply W.
      * destruct (K3 _ _ _ M) as [HP W]. split; [cbn; eauto|]. apply within_mend; auto. apply (mend_within _ _ _ _ _ _ _ M' (many_gok _ _ Hp)). apply W.
  - pose proof (peg_le _ _ _ _ _ _ R Hp Hi) as L. destruct (IH P k HK HF Hp ltac:(lia)) as (K1 & K2 & K3). split; [|split].
    + intros u e R'. apply peg_inv in R' as [(_ & _ & R')|(x & l & e' & -> & _ & R' & R'')].
      * pose proof (peg_det _ _ _ _ _ _ R R' Hp Hi). discriminate.
      * pose proof (peg_det _ _ _ _ _ _ R R' Hp Hi) as Q. injection Q as <- <-. destruct (K1 _ _ R'') as [(x & l' & -> & HP) Le]. split; auto. exists x, l'. auto.
    + intros b l X D. destruct (diag_read _ _ _ _ _ _ R Hp Hi) as [X0 R0]. apply diag_inv in D as [(X' & D)|(v' & j' & X1 & X2 & D1 & D2)].
      * pose proof (diag_det _ _ _ _ _ _ R0 D Hp Hi). discriminate.
      * pose proof (diag_det _ _ _ _ _ _ R0 D1 Hp Hi) as Q. injection Q as <- <- _. eauto.
    + intros ins rem y M. apply mend_inv in M as [(v' & j' & y0 & R' & M & ->)|(y0 & M & _)].
      * pose proof (peg_det _ _ _ _ _ _ R R' Hp Hi) as Q. injection Q as <- <-. destruct (K3 _ _ _ M) as [(x & l & Q & HP) W].
        split; auto. exists x, l. cbn. rewrite Q. auto.
      * destruct (peg_no_mend _ _ _ _ _ _ _ _ _ R Hp Hi M).
Qed.
Lemma firm_seq A B C (p : gram T V A) (q : gram T V B) (f : A -> B -> C) m i : firm p m i -> (forall v j, peg A p m i (PSucc v j) -> i < j) -> firm (GSeq p q f) m i.
Proof using Type. intros H1 H2 F. apply open_inv in F as [F|(v & j & L & F & _)]; [contradiction|]. apply H2 in F. lia. Qed.
Lemma firm_read A (p : gram T V A) m i v j : peg A p m i (PSucc v j) -> gok lay p -> i <= len -> firm p m i.
Proof using Hco Hlay HE. intros H Hp Hi F. pose proof (peg_det _ _ _ _ _ _ H F Hp Hi). discriminate. Qed.
Lemma firm_seq_read A B C (p : gram T V A) (q : gram T V B) (f : A -> B -> C) m i v j : peg A p m i (PSucc v j) -> i < j -> gok lay p -> i <= len -> firm (GSeq p q f) m i.
Proof using Hco Hlay HE.
  intros H Lt Hp Hi. apply firm_seq; [eapply firm_read; eauto|]. intros v' j' R.
  pose proof (peg_det _ _ _ _ _ _ H R Hp Hi) as Q. injection Q as <- <-. exact Lt.
Qed.
(** separated items, in the middle of one *)
Lemma keeps_sep_first A B (p : gram T V A) (sep : gram T V B) m i P k : keeps p m i P k -> firm p m i -> gok lay (sep_by p sep) -> i <= len ->
  keeps (sep_by p sep) m i (fun v => exists x l, v = x :: l /\ P x) k.
Proof using Hco Hlay HE.
  intros HK HF Hg Hi. destruct (sep_gok _ _ _ _ Hg) as [Hp Hs]. assert (Gs : gok lay (seqr sep p)) by (apply gok_seq; auto).
  unfold sep_by. eapply keeps_fmap.
  - apply keeps_maybe; [apply keeps_seq_l; eauto; apply many_gok; exact Gs|].
    intros F. unfold seq in F. apply seq_fail_open in F as [F|(v' & j' & _ & F)]; [contradiction|]. apply many_fail_committed in F. congruence.
  - cbn. intros u w (x & -> & a & b & HP & ->) Q. injection Q as <-. eauto.
Qed.
Lemma keeps_sep_next A B (p : gram T V A) (sep : gram T V B) m i v j vs k0 w k1 P k : peg A p m i (PSucc v j) -> more_items p sep m j vs k0 ->
  peg B sep m k0 (PSucc w k1) -> k0 < k1 -> keeps p m k1 P k -> gok lay (sep_by p sep) -> i <= len ->
  keeps (sep_by p sep) m i (fun u => exists x l, u = (v :: vs) ++ x :: l /\ P x) k.
Proof using Hco Hlay HE.
  intros R HI Rs Lt HK Hg Hi. destruct (sep_gok _ _ _ _ Hg) as [Hp Hs]. assert (Gs : gok lay (seqr sep p)) by (apply gok_seq; auto).
  pose proof (peg_le _ _ _ _ _ _ R Hp Hi) as L. apply more_items_items in HI. pose proof (items_le _ _ _ _ _ _ HI Gs ltac:(lia)) as L'.
  unfold sep_by. eapply keeps_fmap.
  - apply keeps_maybe.
    + eapply keeps_r; eauto; [|apply many_gok; exact Gs]. apply (keeps_many_in _ _ _ _ _ _ HI).
      * unfold seqr. eapply keeps_r; eauto. lia.
      * unfold seqr. eapply firm_seq_read; eauto. lia.
      * exact Gs.
      * lia.
    + intros F. unfold seq in F. apply seq_fail_open in F as [F|(v' & j' & _ & F)].
      * pose proof (peg_det _ _ _ _ _ _ R F Hp Hi). discriminate.
      * apply many_fail_committed in F. congruence.
  - cbn. intros u z (x & -> & l & (x' & l' & -> & (w' & HP & ->)) & ->) Q. injection Q as <-. exists w', l'. split; auto.
Qed.
End Lists.
