(** Rebuilt parsers behave alike. *)
From Verif Require Export CongrSpec RunLemmas EditSpec.

(** [x] is matched by the limit of [y] *)
Definition apx (X : Prop) {A} (x : out A) (y : nat -> out A) : Prop :=
  (forall r, x = Ret r -> lim y (Ret r)) /\ (X -> forall e, x = Raise e -> lim y (Raise e)).

Section Apx.
Variable X : Prop.
Lemma apx_const {A} (x : out A) : apx X x (fun _ => x).
Proof. split; intros; subst; apply lim_const. Qed.
Lemma apx_bind {A B} (x : out A) (x' : nat -> out A) (f : A -> out B) (f' : nat -> A -> out B) :
  apx X x x' -> (forall a, x = Ret a -> apx X (f a) (fun n => f' n a)) ->
  apx X (obind x f) (fun n => obind (x' n) (f' n)).
Proof.
  intros [H1 H2] Hf. destruct x as [a|e|]; simpl.
  - specialize (Hf a eq_refl). destruct Hf as [K1 K2]. split.
    + intros r Hr. eapply lim_bind_ret; [apply H1; reflexivity|]. apply K1; auto.
    + intros HX e He. eapply lim_bind_ret; [apply H1; reflexivity|]. apply K2; auto.
  - split; [discriminate|]. intros HX e' He. injection He as <-. apply lim_bind_exn. apply H2; auto.
  - split; [|intros _]; discriminate.
Qed.
Lemma apx_flat_mapM {A B} (f : A -> out (list B)) (f' : nat -> A -> out (list B)) l :
  (forall a, In a l -> apx X (f a) (fun n => f' n a)) ->
  apx X (flat_mapM f l) (fun n => flat_mapM (f' n) l).
Proof.
  induction l as [|a l IH]; intros H; simpl; [apply apx_const|].
  apply apx_bind; [apply H; left; auto|]. intros y _.
  apply apx_bind; [apply IH; intros; apply H; right; auto|]. intros; apply apx_const.
Qed.
Lemma lim_ext {A} (x y : nat -> out A) r k : (forall n, k <= n -> x n = y n) -> lim x r -> lim y r.
Proof. intros H [n Hn]. exists (n + k). intros m Hm. rewrite <- H by lia. apply Hn. lia. Qed.
Lemma apx_ext {A} (x : out A) (y z : nat -> out A) k :
  (forall n, k <= n -> y n = z n) -> apx X x y -> apx X x z.
Proof. intros H [H1 H2]. split; intros; eapply lim_ext; eauto. Qed.
Lemma apx_shift {A} (x : out A) (y z : nat -> out A) :
  (forall n, z (S n) = y n) -> apx X x y -> apx X x z.
Proof.
  intros H [H1 H2].
  assert (K : forall r, lim y r -> lim z r).
  { intros r [n Hn]. exists (S n). intros m Hm. destruct m as [|m]; [lia|]. rewrite H. apply Hn. lia. }
  split; intros; apply K; auto.
Qed.
Lemma apx_nofuel {A} (y : nat -> out A) : apx X NoFuel y.
Proof. split; [|intros _]; discriminate. Qed.
Lemma agree_apx {A} (x : nat -> out A) y n : mono y -> agree X x y -> apx X (x n) y.
Proof.
  intros My [H1 H2]. split.
  - intros r Hr. apply lim_iff; auto; [discriminate|]. apply H1. eauto.
  - intros HX e He. apply lim_iff; auto; [discriminate|]. apply H2; eauto.
Qed.
Lemma apx_agree {A} (x y : nat -> out A) :
  (forall n, apx X (x n) y) -> (forall n, apx X (y n) x) -> agree X x y.
Proof.
  intros H K. split.
  - intros r. split; intros [n Hn]; [apply H in Hn|apply K in Hn]; apply lim_ex in Hn; auto.
  - intros HX e. split; intros [n Hn]; [eapply H in Hn|eapply K in Hn]; auto; apply lim_ex in Hn; auto.
Qed.
(** composition *)
Lemma apx_trans {A} (x : out A) (y z : nat -> out A) :
  apx X x y -> (forall n, apx X (y n) z) -> apx X x z.
Proof.
  intros [H1 H2] K. split.
  - intros r Hr. apply H1 in Hr. apply lim_ex in Hr as [n Hn]. apply (K n); auto.
  - intros HX e He. apply H2 in He; auto. apply lim_ex in He as [n Hn]. apply (K n); auto.
Qed.
End Apx.

Section Combs.
Context {T : Type}.
Variable X : Prop.
Variable s : list T.
(** positions of interest *)
Variable inb : nat -> Prop.

Definition keepf {A} (P : pfast T A) : Prop := forall pos c o, inb pos ->
  P s pos c = Ret (SOk o) -> inb (ok_pos o).
Definition keepF {A} (P : pfull T A) : Prop := forall pos c ins rem r, inb pos ->
  P s pos c ins rem = Ret r ->
  match r with ROk o => inb (ok_pos o) | RErr _ => True
  | RRec rc => forall rep, In rep (rc_reps rc) -> inb (r_pos rep) end.
Definition simf {A} (P : pfast T A) (p : nat -> pfast T A) : Prop := forall pos c, inb pos ->
  apx X (P s pos c) (fun n => p n s pos c).
Definition simF {A} (P : pfull T A) (p : nat -> pfull T A) : Prop := forall pos c ins rem, inb pos ->
  apx X (P s pos c ins rem) (fun n => p n s pos c ins rem).

Ltac ap := first [apply apx_const | apply apx_bind; [solve [auto]|intros] ].
Lemma simF_continue {A B C} (rc : recr T A) ins (f : A -> nat -> ctx T -> Z -> out (res T B))
    (f' : nat -> A -> nat -> ctx T -> Z -> out (res T B)) (merge : A -> B -> C) :
  (forall rep, In rep (rc_reps rc) ->
     apx X (f (r_val rep) (r_pos rep) (r_ctx rep) (r_ins rep))
       (fun n => f' n (r_val rep) (r_pos rep) (r_ctx rep) (r_ins rep))) ->
  apx X (continue_parse rc ins f merge) (fun n => continue_parse rc ins (f' n) merge).
Proof.
  intros H. unfold continue_parse. apply apx_bind; [|intros; ap].
  apply apx_flat_mapM. intros rep Hin. unfold cont_one. apply apx_bind; [auto|].
  intros r _. destruct r; ap.
Qed.

Lemma sim_fmap {A B} P p (f : A -> out B) : simf P p -> simf (fmap_fast P f) (fun n => fmap_fast (p n) f).
Proof. intros H pos c Hp. unfold fmap_fast. repeat ap. Qed.
Lemma sim_fmapF {A B} P p (f : A -> out B) : simF P p -> simF (fmap_full P f) (fun n => fmap_full (p n) f).
Proof. intros H pos c ins rem Hp. unfold fmap_full. repeat ap. Qed.
Lemma sim_alt {A} P p Q q : simf (A:=A) P p -> simf Q q -> simf (alt_fast P Q) (fun n => alt_fast (p n) (q n)).
Proof.
  intros H K pos c Hp. unfold alt_fast. ap. destruct a as [o|e]; [ap|]. destruct (er_con e); [ap|].
  ap. destruct (sres_con a); [ap|]. destruct a; ap.
Qed.
Lemma sim_altF {A} P p Q q : simF (A:=A) P p -> simF Q q -> simF (alt_full P Q) (fun n => alt_full (p n) (q n)).
Proof.
  intros H K pos c ins rem Hp. unfold alt_full. ap.
  assert (R : forall la x, apx X (alt_recover P Q la x s pos c ins rem)
    (fun n => alt_recover (p n) (q n) la x s pos c ins rem)).
  { intros la x. unfold alt_recover. destruct rem; [|ap]. ap. ap. destruct a0, a1; ap. }
  destruct a as [o|[la xa ca]|[? ? la xa ca]]; [ap| |]; (destruct ca; [ap|]); ap;
    (destruct (res_con a); [ap|]); destruct a; auto; ap.
Qed.
Lemma sim_bind {A B} P p (F : A -> pfast T B) f : keepf P -> simf P p ->
  (forall v, simf (F v) (fun n => f n v)) -> simf (bind_fast P F) (fun n => bind_fast (p n) (f n)).
Proof.
  intros Kp H K pos c Hp. unfold bind_fast. ap. destruct a as [o|e]; [|ap].
  apply apx_bind; [apply (K (ok_val o)); eauto|]. intros; ap.
Qed.
Lemma sim_bindF {A B} P p (F : A -> pfull T B) f : keepF P -> simF P p ->
  (forall v, simF (F v) (fun n => f n v)) -> simF (bind_full P F) (fun n => bind_full (p n) (f n)).
Proof.
  intros Kp H K pos c ins rem Hp. unfold bind_full. ap. destruct a as [o|e|rc]; [|ap|].
  - apply Kp in H0; auto. destruct (ok_con o); (apply apx_bind; [apply (K (ok_val o)); auto|]); intros; ap.
  - apply Kp in H0; auto. apply (simF_continue rc ins (fun v p c r => F v s p c ins (Some r))
      (fun n v p c r => f n v s p c ins (Some r))). intros rep Hin. apply (K (r_val rep)). auto.
Qed.
Lemma sim_seq {A B C} P p Q q (merge : A -> B -> C) : keepf P -> simf P p -> simf Q q ->
  simf (seq_fast P Q merge) (fun n => seq_fast (p n) (q n) merge).
Proof.
  intros Kp H K pos c Hp. unfold seq_fast. ap. destruct a as [o|e]; [|ap]. cbv zeta.
  apply apx_bind; [apply K; eauto|]. intros. ap.
Qed.
Lemma sim_seqF {A B C} P p Q q (merge : A -> B -> C) : keepF P -> simF P p -> simF Q q ->
  simF (seq_full P Q merge) (fun n => seq_full (p n) (q n) merge).
Proof.
  intros Kp H K pos c ins rem Hp. unfold seq_full. ap. destruct a as [o|e|rc]; [|ap|].
  - apply Kp in H0; auto. cbv zeta. apply apx_bind; [apply K; auto|]. intros. ap.
  - apply Kp in H0; auto. apply (simF_continue rc ins (fun _ p c r => Q s p c ins (Some r))
      (fun n _ p c r => q n s p c ins (Some r))). intros rep Hin. apply K. auto.
Qed.
Lemma sim_maybe {A} P p : simf (A:=A) P p -> simf (maybe_fast P) (fun n => maybe_fast (p n)).
Proof.
  intros H pos c Hp. unfold maybe_fast. ap. destruct a as [o|e]; [ap|]. destruct (er_con e); ap.
Qed.
Lemma sim_maybeF {A} P p : simF (A:=A) P p -> simF (maybe_full P) (fun n => maybe_full (p n)).
Proof.
  intros H pos c ins rem Hp. unfold maybe_full. ap. destruct a; [ap| |]; destruct (res_con _); ap.
Qed.
Lemma sim_many {A} P p : keepf P -> simf (A:=A) P p -> forall k i con v pos c, inb pos ->
  apx X (many_fast P k con v s pos c) (fun n => many_fast (p n) (n - i) con v s pos c).
Proof.
  intros Kp H. induction k as [|k IH]; intros i con v pos c Hp; [apply apx_nofuel|].
  apply (apx_ext X _ (fun n => many_fast (p n) (S (n - S i)) con v s pos c) _ (S i)).
  { intros n Hn. replace (n - i) with (S (n - S i)) by lia. reflexivity. }
  simpl. apply apx_bind; [auto|]. intros a Ha. destruct a as [o|e].
  - apply Kp in Ha; auto. destruct (ok_con o); [apply IH; auto|ap].
  - destruct (er_con e); ap.
Qed.
Lemma sim_manyF {A} P p : keepF P -> simF (A:=A) P p -> forall k i con v pos c ins, inb pos ->
  apx X (many_full P k con v s pos c ins) (fun n => many_full (p n) (n - i) con v s pos c ins).
Proof.
  intros Kp H. induction k as [|k IH]; intros i con v pos c ins Hp; [apply apx_nofuel|].
  apply (apx_ext X _ (fun n => many_full (p n) (S (n - S i)) con v s pos c ins) _ (S i)).
  { intros n Hn. replace (n - i) with (S (n - S i)) by lia. reflexivity. }
  simpl. apply apx_bind; [auto|]. intros a Ha. destruct a as [o|e|rc].
  - apply Kp in Ha; auto. destruct (ok_con o); [apply IH; auto|ap].
  - destruct (er_con e); ap.
  - apply Kp in Ha; auto. apply (simF_continue rc ins (fun _ p' c' _ => many_full P k false [] s p' c' ins)
      (fun n _ p' c' _ => many_full (p n) (n - S i) false [] s p' c' ins)). intros rep Hin. apply IH. auto.
Qed.
Lemma sim_attempt {A} P p : simf (A:=A) P p -> simf (attempt_fast P) (fun n => attempt_fast (p n)).
Proof. intros H pos c Hp. unfold attempt_fast. ap. destruct a; ap. Qed.
Lemma sim_attemptF {A} P p Q q : simf (A:=A) P p -> simF Q q ->
  simF (attempt_full P Q) (fun n => attempt_full (p n) (q n)).
Proof.
  intros H K pos c ins rem Hp. unfold attempt_full. destruct rem; [apply K; auto|]. ap. destruct a; ap.
Qed.
Lemma sim_withF {A} P p mk lab : simF (A:=A) P p ->
  simF (recover_with_full P mk lab) (fun n => recover_with_full (p n) mk lab).
Proof.
  intros H pos c ins rem Hp. unfold recover_with_full. destruct rem as [m|]; [|apply H; auto].
  ap. destruct a; [ap| |]; (destruct (res_con _); [ap|]); destruct (Z.eqb m 0); ap.
Qed.
End Combs.

Section Congr.
Context {T : Type} {V : nat -> Type}.
Notation gram := (gram T V).
Variable X : Prop.
Variable E1 E2 : env T V.
(** [B]: restrict to positions inside the input, for well-formed parsers *)
Variable B : Prop.
Variable s : list T.
Definition inb (pos : nat) : Prop := B -> pos <= List.length s.
Definition okg {A} (g : gram A) : Prop := B -> wf g.
Hypothesis HE1 : forall d, okg (E1 d).

Lemma fast_keep n A (g : gram A) : okg g -> keepf s inb (fast E1 n g).
Proof.
  intros Hg pos c o Hp H HB. 
  assert (G : forall A (g : gram A), wf g -> gok True g) by (intros; apply gok_wf; auto).
  eapply (fast_good E1 s _ _ _ True (any_system s True)) in H.
  - destruct H as (_ & H & _). lia.
  - intros d. apply G. apply HE1. auto.
  - apply G. apply Hg. auto.
  - apply Hp. auto.
  - exact I.
Qed.
Lemma full_keep n A (g : gram A) : okg g -> keepF s inb (full E1 n g).
Proof.
  intros Hg pos c ins rem r Hp H.
  assert (G : forall A (g : gram A), wf g -> gok True g) by (intros; apply gok_wf; auto).
  assert (K : B -> resgood s (fun _ _ => True) any_Cok (der E1 s (fun _ _ => True) g (ctx_mark c) pos) pos (ctx_mark c) rem r).
  { intros HB. eapply (full_good E1 s _ _ _ True (any_system s True)); [| | | |exact H].
    - intros d. apply G. apply HE1. auto.
    - apply G. apply Hg. auto.
    - apply Hp. auto.
    - exact I. }
  destruct r as [o|e|rc]; auto.
  - intros HB. destruct (K HB) as (_ & K' & _). lia.
  - intros rep Hin HB. destruct (K HB) as [_ K']. destruct (K' rep Hin) as [(sk & _ & _ & _ & _ & K1 & _) _]. lia.
Qed.

Definition Sim n A (g g' : gram A) : Prop := okg g ->
  simf X s inb (fast E1 n g) (fun m => fast E2 m g') /\
  simF X s inb (full E1 n g) (fun m => full E2 m g').

Lemma step n (R : forall A, gram A -> gram A -> Prop) :
  (forall A g g', R A g g' -> Sim n A g g') ->
  forall A g g', alike R A g g' -> Sim (S n) A g g'.
Proof.
  intros HR A g g' H.
  assert (G : forall P : Prop, (okg g -> P) -> okg g -> P) by auto.
  assert (W : forall C (h : gram C), wf h -> gall wf_node h) by auto.
  destruct H; intros Hg;
    repeat match goal with
    | Hr : R _ ?p ?p' |- _ =>
        let K := fresh "K" in let O := fresh "O" in let S1 := fresh "S" in let S2 := fresh "S" in
        assert (O : okg p) by (intros HB; specialize (Hg HB); apply Hg);
        pose proof (HR _ _ _ Hr O) as [S1 S2];
        pose proof (fast_keep n _ _ O); pose proof (full_keep n _ _ O); clear Hr
    | Hr : forall v, R _ (?f v) (?f' v) |- _ =>
        let K := fresh "K" in let O := fresh "O" in
        assert (O : forall v, okg (f v)) by (intros v HB; specialize (Hg HB); apply Hg);
        assert (K : forall v, Sim n _ (f v) (f' v)) by auto; clear Hr
    end;
    (split; intros pos c; [intros Hp|intros ins rem Hp]);
    (eapply apx_shift; [intros ?; simpl; reflexivity|]; simpl).
  all: try apply apx_const.
  - apply (sim_fmap X s inb _ (fun m => fast E2 m p')); auto.
  - apply (sim_fmapF X s inb _ (fun m => full E2 m p')); auto.
  - apply (sim_alt X s inb _ (fun m => fast E2 m p') _ (fun m => fast E2 m q')); auto.
  - apply (sim_altF X s inb _ (fun m => full E2 m p') _ (fun m => full E2 m q')); auto.
  - apply (sim_bind X s inb _ (fun m => fast E2 m p') _ (fun m v => fast E2 m (f' v))); auto.
    intros v. apply K. auto.
  - apply (sim_bindF X s inb _ (fun m => full E2 m p') _ (fun m v => full E2 m (f' v))); auto.
    intros v. apply K. auto.
  - apply (sim_seq X s inb _ (fun m => fast E2 m p') _ (fun m => fast E2 m q')); auto.
  - apply (sim_seqF X s inb _ (fun m => full E2 m p') _ (fun m => full E2 m q')); auto.
  - apply (sim_maybe X s inb _ (fun m => fast E2 m p')); auto.
  - apply (sim_maybeF X s inb _ (fun m => full E2 m p')); auto.
  - apply (apx_ext X _ (fun m => many_fast (fast E2 m p') (m - 0) false [] s pos c) _ 0).
    + intros m _. rewrite Nat.sub_0_r. reflexivity.
    + apply (sim_many X s inb _ (fun m => fast E2 m p')); auto.
  - apply (apx_ext X _ (fun m => many_full (full E2 m p') (m - 0) false [] s pos c ins) _ 0).
    + intros m _. rewrite Nat.sub_0_r. reflexivity.
    + apply (sim_manyF X s inb _ (fun m => full E2 m p')); auto.
  - apply (sim_attempt X s inb _ (fun m => fast E2 m p')); auto.
  - apply (sim_attemptF X s inb _ (fun m => fast E2 m p') _ (fun m => full E2 m p')); auto.
  - unfold label_fast. apply apx_bind; [auto|]. intros. apply apx_const.
  - unfold label_full. apply apx_bind; [auto|]. intros. apply apx_const.
  - first [unfold recover_fast; solve [auto] | unfold recover_with_fast; solve [auto]].
  - unfold recover_full. apply apx_bind; [auto|]. intros a _. destruct a; apply apx_const.
  - first [unfold recover_fast; solve [auto] | unfold recover_with_fast; solve [auto]].
  - apply (sim_withF X s inb _ (fun m => full E2 m p')); auto.
  - first [unfold recover_fast; solve [auto] | unfold recover_with_fast; solve [auto]].
  - apply (sim_withF X s inb _ (fun m => full E2 m p')); auto.
  - unfold block_fast. apply apx_bind; [auto|]. intros. apply apx_const.
  - unfold block_full. apply apx_bind; [auto|]. intros. apply apx_const.
  - unfold aligned_fast. cbv zeta. destruct (Z.eqb _ _); [auto|apply apx_const].
  - unfold aligned_full. cbv zeta. destruct (Z.eqb _ _); [auto|apply apx_const].
  - unfold indented_fast. cbv zeta. destruct (Z.eqb _ _); [|apply apx_const].
    apply apx_bind; [auto|]. intros. apply apx_const.
  - unfold indented_full. cbv zeta. destruct (Z.eqb _ _); [|apply apx_const].
    apply apx_bind; [auto|]. intros. apply apx_const.
Qed.

Variable L : forall A, gram A -> gram A -> Prop.
(** a law holds for the definitions [E2] *)
Hypothesis HL : forall A (p q : gram A), L A p q ->
  forall n, okg p -> simf X s inb (fast E2 n p) (fun m => fast E2 m q) /\
                     simF X s inb (full E2 n p) (fun m => full E2 m q).
Hypothesis HE : forall d, rebuilt L E1 E2 (V d) (E1 d) (E2 d).

Lemma alike_refl A (g : gram A) :
  match g with GDelay _ => True | _ => alike (fun A p q => p = q) A g g end.
Proof. destruct g; auto; constructor; auto. Qed.

Lemma rebuilt_sim n :
  (forall A (g : gram A), Sim n A g g) /\
  (forall A (g g' : gram A), rebuilt L E1 E2 A g g' -> Sim n A g g').
Proof.
  induction n as [|n [IHa IHb]].
  { split; intros; (intros Hg; split; intros pos c; intros; apply apx_nofuel). }
  assert (Da : forall d q, rebuilt L E1 E2 (V d) (E1 d) q -> Sim (S n) (V d) (GDelay d) q).
  { intros d q Hq Hd. destruct (IHb _ _ _ Hq (HE1 d)) as [H1 H2]. split; intros pos c; intros; simpl; auto. }
  assert (Db : forall d g, Sim (S n) (V d) g (E2 d) -> Sim (S n) (V d) g (GDelay d)).
  { intros d g H Hg. destruct (H Hg) as [H1 H2].
    split; intros pos c; intros; (eapply apx_shift; [intros ?; simpl; reflexivity|]); auto. }
  assert (Ga : forall A (g : gram A), Sim (S n) A g g).
  { intros A g. pose proof (alike_refl _ g) as H. destruct g;
      try (eapply step; [|exact H]; intros ? ? ? <-; apply IHa).
    apply Db, Da, HE. }
  split; [exact Ga|].
  intros A g g' H. induction H as [A p q H|A p q H|d|d q H _|d p _ IH].
  - intros Hg. destruct (Ga _ p Hg) as [G1 G2].
    split; intros pos c; intros; (eapply apx_trans; [solve [apply G1; auto|apply G2; auto]|]);
      intros m; destruct (HL _ _ _ H m Hg) as [L1 L2]; auto.
  - eapply step; [|exact H]. exact IHb.
  - apply Db, Da, HE.
  - apply Da. exact H.
  - apply Db. exact IH.
Qed.
End Congr.
