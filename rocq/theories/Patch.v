(** Proof of the analysis of PatchSpec.v: what [fills] promises holds of every
    finished run of [full]. *)
From Verif Require Export PatchSpec PropsTerm Prios.

Section Patch.
Context {T : Type} {V : nat -> Type}.
Notation gram := (gram T V).
Variable E : env T V.

Definition calm A (g : gram A) : Prop := attempt_free E g.

(** without [attempt]: a plain failure before anything was read stays one that
    has read nothing when recovery is allowed *)
Lemma steady n : forall A (g : gram A) s pos c ins rem e r, attempt_free E g ->
  fast E n g s pos c = Ret (SErr e) -> er_con e = false ->
  full E n g s pos c ins rem = Ret r -> res_con r = false /\ forall o, r <> ROk o.
Proof.
  induction n as [|n IH]; intros A g s pos c ins rem e r Hg H He K; [discriminate|].
  assert (Hno : forall o, r <> ROk o).
  { intros o ->. apply full_ok_iff in K. congruence. }
  split; [|exact Hno].
  pose proof (everywhere_children E calm _ A g (fun B q Hq => Hq) Hg) as Hk.
  pose proof (everywhere_refl E _ _ _ Hg) as Hatt. unfold calm in Hk. simpl in Hatt.
  destruct g; cbn [fast full] in H, K; simpl in Hk.
  - discriminate.
  - unfold purefn_fast in H. destruct (f tt); discriminate.
  - injection K as <-. reflexivity.
  - unfold eof_fast, eof_full in *. destruct (Nat.eqb _ _); [discriminate|].
    destruct rem; injection K as <-; reflexivity.
  - unfold satisfy_fast, satisfy_full in *. destruct (probe_tok test s pos) as [[t|]|?|]; cbn in *; try discriminate.
    destruct rem; [|injection K as <-; reflexivity].
    destruct (skip_search _ _ _) as [[[j t]|]|?|]; cbn in K; try discriminate; injection K as <-; reflexivity.
  - unfold sym_fast, sym_full in *. destruct (probe_sym teq x s pos) as [[t|]|?|]; cbn in *; try discriminate.
    destruct rem; [|injection K as <-; reflexivity].
    destruct (skip_search _ _ _) as [[[j t]|]|?|]; cbn in K; try discriminate; injection K as <-; reflexivity.
  - unfold literal_fast, literal_full in *. destruct (starts_with teq x s pos); cbn in *; try discriminate.
    destruct rem; [|injection K as <-; reflexivity].
    destruct (skip_search _ _ _) as [[[j t]|]|?|]; cbn in K; try discriminate; injection K as <-; reflexivity.
  - unfold regexp_fast, regexp_full in *. destruct (probe_re m s pos) as [[? ?]|]; cbn in *; try discriminate.
    destruct rem; [|injection K as <-; reflexivity].
    destruct (skip_search _ _ _) as [[[j [? ?]]|]|?|]; cbn in K; try discriminate; injection K as <-; reflexivity.
  - unfold fmap_fast, fmap_full in *. apply obind_ret in K as [r1 [K1 K]].
    destruct (fast E n g s pos c) as [[o1|e1]|?|] eqn:F; cbn in H; try discriminate.
    1:{ unfold ok_fmap in H. destruct (f (ok_val o1)); discriminate. }
    injection H as ->. destruct (IH _ _ _ _ _ _ _ _ _ Hk F He K1) as [C N].
    destruct r1 as [o|e1|c1]; [destruct (N o eq_refl)|..]; cbn in K.
    + injection K as <-. exact C.
    + apply obind_ret in K as [c2 [M K]]. injection K as <-. unfold rec_fmap in M.
      apply obind_ret in M as [l [_ M]]. injection M as <-. exact C.
  - destruct Hk as [Hk1 Hk2]. unfold alt_fast in H.
    destruct (fast E n g1 s pos c) as [[o1|e1]|?|] eqn:F1; cbn [obind] in H; try discriminate.
    destruct (er_con e1) eqn:C1; [injection H as <-; congruence|].
    destruct (fast E n g2 s pos c) as [[o2|e2]|?|] eqn:F2; cbn [obind] in H; try discriminate.
    1:{ destruct (sres_con _); discriminate. }
    destruct (sres_con (SErr e2)) eqn:C2; [injection H as <-; cbn in C2; congruence|].
    cbn in C2. unfold alt_full in K.
    apply obind_ret in K as [ra [Ka K]]. destruct (IH _ _ _ _ _ _ _ _ _ Hk1 F1 C1 Ka) as [Ca Na].
    destruct ra as [o|[la xa ca]|[pa ma la xa ca]]; [destruct (Na o eq_refl)|..]; cbn in Ca; subst ca; cbn in K.
    all: apply obind_ret in K as [rb [Kb K]]; destruct (IH _ _ _ _ _ _ _ _ _ Hk2 F2 C2 Kb) as [Cb Nb];
      rewrite Cb in K; destruct rb as [o|eb|cb]; [destruct (Nb o eq_refl)|..].
    all: unfold alt_recover in K; destruct rem as [m|]; [|injection K as <-; reflexivity];
      apply obind_ret in K as [rra [Kra K]]; apply obind_ret in K as [rrb [Krb K]];
      destruct (IH _ _ _ _ _ _ _ _ _ Hk1 F1 C1 Kra) as [Cra Nra];
      destruct (IH _ _ _ _ _ _ _ _ _ Hk2 F2 C2 Krb) as [Crb Nrb];
      destruct rra as [?|?|a]; [destruct (Nra _ eq_refl)|..];
      (destruct rrb as [?|?|b]; [destruct (Nrb _ eq_refl)|..]); injection K as <-; auto;
      cbn in *; unfold join_repairs; rewrite Cra, Crb;
      destruct (rc_min a); reflexivity.
  - destruct Hk as [Hk1 Hk2]. unfold bind_fast in H. unfold bind_full in K.
    destruct (fast E n g s pos c) as [[o1|e1]|?|] eqn:F1; cbn [obind] in H; try discriminate.
    + pose proof (proj2 (full_ok_iff E n _ g s pos c ins rem o1) F1) as G. rewrite G in K. cbn [obind] in K.
      destruct (fast E n (f (ok_val o1)) s (ok_pos o1) (ok_ctx o1)) as [[o2|e2]|?|] eqn:F2; cbn in H; try discriminate.
      injection H as <-. unfold er_prepend in He.
      destruct (er_con e2) eqn:C2; [congruence|]. cbn in He.
      destruct (ok_con o1); [rewrite ?orb_true_r in He; discriminate|].
      apply obind_ret in K as [rb [Kb K]].
      destruct (IH _ _ _ _ _ _ _ _ _ (Hk2 _) F2 C2 Kb) as [Cb Nb]. injection K as <-.
      destruct rb as [?|e3|c3]; [destruct (Nb _ eq_refl)|..]; cbn in *; unfold er_prepend; rewrite Cb; cbn; auto.
    + injection H as ->. apply obind_ret in K as [ra [Ka K]].
      destruct (IH _ _ _ _ _ _ _ _ _ Hk1 F1 He Ka) as [Ca Na].
      destruct ra as [?|?|ra]; [destruct (Na _ eq_refl)|injection K as <-; auto|].
      apply continue_ret in K as (reps & _ & ->). exact Ca.
  - destruct Hk as [Hk1 Hk2]. unfold seq_fast in H. unfold seq_full in K.
    destruct (fast E n g1 s pos c) as [[o1|e1]|?|] eqn:F1; cbn [obind] in H; try discriminate.
    + pose proof (proj2 (full_ok_iff E n _ g1 s pos c ins rem o1) F1) as G. rewrite G in K. cbn [obind] in K.
      cbv zeta in H, K.
      destruct (fast E n g2 s (ok_pos o1) (ok_ctx o1)) as [[o2|e2]|?|] eqn:F2; cbn in H; try discriminate.
      injection H as <-. unfold er_prepend in He.
      destruct (er_con e2) eqn:C2; [congruence|]. cbn in He.
      destruct (ok_con o1); [rewrite ?orb_true_r in He; discriminate|].
      apply obind_ret in K as [rb [Kb K]]. apply obind_ret in K as [rb' [Kf K]].
      destruct (IH _ _ _ _ _ _ _ _ _ Hk2 F2 C2 Kb) as [Cb Nb]. injection K as <-.
      destruct rb as [?|e3|c3]; [destruct (Nb _ eq_refl)|..]; cbn in Kf.
      * injection Kf as <-. cbn in *; unfold er_prepend; rewrite Cb; cbn; auto.
      * apply obind_ret in Kf as [c2 [M Kf]]. injection Kf as <-. unfold rec_fmap in M.
        apply obind_ret in M as [l [_ M]]. injection M as <-. cbn in *. rewrite Cb. reflexivity.
    + injection H as ->. apply obind_ret in K as [ra [Ka K]].
      destruct (IH _ _ _ _ _ _ _ _ _ Hk1 F1 He Ka) as [Ca Na].
      destruct ra as [?|?|ra]; [destruct (Na _ eq_refl)|injection K as <-; auto|].
      apply continue_ret in K as (reps & _ & ->). exact Ca.
  - unfold maybe_fast in H. apply obind_ret in H as [r0 [H0 H]].
    destruct r0 as [o|e0]; [apply obind_ret in H as [? [_ H]]; discriminate|].
    destruct (er_con e0) eqn:C; [injection H as <-; congruence|discriminate].
  - exfalso. assert (G : forall k b v pos c e, many_fast (fast E n g) k b v s pos c = Ret (SErr e) -> er_con e = true).
    { clear. induction k as [|k IHk]; intros b v pos c e H; [discriminate|]. simpl in H.
      apply obind_ret in H as [r0 [H0 H]]. destruct r0 as [o|e0].
      - destruct (ok_con o); [eapply IHk; eauto|discriminate].
      - destruct (er_con e0) eqn:C; [injection H as <-; congruence|discriminate]. }
    apply G in H. congruence.
  - destruct Hatt. exact I.
  - unfold label_fast, label_full in *. apply obind_ret in K as [r1 [K1 K]].
    destruct (fast E n g s pos c) as [[o1|e1]|?|] eqn:F; cbn in H; try discriminate.
    injection H as <-. unfold er_set_exp in He.
    assert (He1 : er_con e1 = false) by (destruct (er_con e1) eqn:Q; auto; cbn in He; congruence).
    destruct (IH _ _ _ _ _ _ _ _ _ Hk F He1 K1) as [C N]. injection K as <-.
    destruct r1 as [o|e2|c1]; [destruct (N o eq_refl)|..]; cbn in *; auto. unfold er_set_exp. rewrite C. cbn. auto.
  - unfold recover_fast, recover_full in *. apply obind_ret in K as [r1 [K1 K]].
    destruct (IH _ _ _ _ _ _ _ _ _ Hk H He K1) as [C N].
    destruct r1 as [o|e2|c1]; injection K as <-; auto.
  - unfold recover_with_fast, recover_with_full in *. destruct rem as [m|].
    + apply obind_ret in K as [r1 [K1 K]]. destruct (IH _ _ _ _ _ _ _ _ _ Hk H He K1) as [C N].
      destruct r1 as [o|e2|c1]; [destruct (N o eq_refl)|..]; rewrite C in K;
        (destruct (Z.eqb m 0); [injection K as <-; auto|]); cbn in K; injection K as <-; reflexivity.
    + exact (proj1 (IH _ _ _ _ _ _ _ _ _ Hk H He K)).
  - unfold recover_with_fast, recover_with_full in *. destruct rem as [m|].
    + apply obind_ret in K as [r1 [K1 K]]. destruct (IH _ _ _ _ _ _ _ _ _ Hk H He K1) as [C N].
      destruct r1 as [o|e2|c1]; [destruct (N o eq_refl)|..]; rewrite C in K;
        (destruct (Z.eqb m 0); [injection K as <-; auto|]); apply obind_ret in K as [? [_ K]]; injection K as <-; reflexivity.
    + exact (proj1 (IH _ _ _ _ _ _ _ _ _ Hk H He K)).
  - unfold block_fast, block_full in *. cbv zeta in H, K. apply obind_ret in K as [r1 [K1 K]].
    destruct (fast E n g _ _ _) as [[o1|e1]|?|] eqn:F; cbn in H; try discriminate.
    injection H as ->. destruct (IH _ _ _ _ _ _ _ _ _ Hk F He K1) as [C N]. injection K as <-.
    destruct r1 as [o|e2|c1]; [destruct (N o eq_refl)|..]; auto.
  - unfold aligned_fast, aligned_full in *. cbv zeta in H, K.
    destruct (Z.eqb _ _); [|injection K as <-; reflexivity].
    exact (proj1 (IH _ _ _ _ _ _ _ _ _ Hk H He K)).
  - unfold indented_fast, indented_full in *. cbv zeta in H, K.
    destruct (Z.eqb _ _); [|injection K as <-; reflexivity].
    apply obind_ret in K as [r1 [K1 K]].
    destruct (fast E n g _ _ _) as [[o1|e1]|?|] eqn:F; cbn in H; try discriminate.
    injection H as ->. destruct (IH _ _ _ _ _ _ _ _ _ Hk F He K1) as [C N]. injection K as <-.
    destruct r1 as [o|e2|c1]; [destruct (N o eq_refl)|..]; auto.
  - eapply IH; [|exact H|exact He|exact K]. eapply everywhere_delay; [exact Hg|apply oc_refl].
  - discriminate.
Qed.


(** ** Outcomes *)
Definition sat (ins lo L : Z) : Prop :=
  (ins < 0 /\ L < 0)%Z \/ (0 <= L <= ins /\ lo <= L)%Z.
Definition lo_late (k : need) (ins : Z) : Z := (ins - Z.of_nat (later k))%Z.
Definition lo_early (k : need) (ins m : Z) : Z :=
  Z.min (m - Z.of_nat (now k)) (ins - Z.of_nat (later k)).
Definition late {A} (k : need) (pos : nat) (ins : Z) (rc : recr T A) : Prop :=
  exists rep, In rep (rc_reps rc) /\ pos < r_pos rep /\ sat ins (lo_late k ins) (r_ins rep).
Definition early {A} (mk : Prop) (k : need) (pos : nat) (ins : Z) (rem : option Z) (rc : recr T A) : Prop :=
  exists m rep, rem = Some m /\ In rep (rc_reps rc) /\ pos <= r_pos rep /\
    sat ins (lo_early k ins m) (r_ins rep) /\ (mk -> r_prio rep <> None).
Definition outcome {A} (l : level) (k : need) (pos : nat) (ins : Z) (rem : option Z) (r : res T A) : Prop :=
  match r with
  | ROk _ => True
  | RErr e => er_con e = false /\ (rem = None \/ l = Soft \/ l = Clean)
  | RRec rc =>
      match l with
      | Soft => rc_con rc = true -> late k pos ins rc
      | Clean | Firm => late k pos ins rc \/ early False k pos ins rem rc
      | Marked => (rc_con rc = true /\ late k pos ins rc) \/ early True k pos ins rem rc
      end
  end.
(** enough insertions *)
Definition okb (l : level) (k : need) (ins : Z) (rem : option Z) : Prop :=
  (ins < 0 \/ Z.of_nat (later k) <= ins)%Z /\
  forall m, rem = Some m ->
    (ins < 0 /\ m < 0)%Z \/ ((0 <= m <= ins)%Z /\ (l = Soft \/ (Z.of_nat (now k) <= m)%Z)).

Lemma late_mono {A} k k' pos pos' ins (rc rc' : recr T A) :
  later k <= later k' -> pos' <= pos -> (forall x, In x (rc_reps rc) -> In x (rc_reps rc')) ->
  late k pos ins rc -> late k' pos' ins rc'.
Proof.
  intros Hk Hp Hi (rep & H1 & H2 & H3). exists rep. split; [auto|]. split; [lia|].
  unfold sat, lo_late in *. lia.
Qed.
Lemma early_mono {A} (mk mk' : Prop) k k' pos ins rem (rc rc' : recr T A) :
  need_le k k' -> (mk' -> mk) -> (forall x, In x (rc_reps rc) -> In x (rc_reps rc')) ->
  early mk k pos ins rem rc -> early mk' k' pos ins rem rc'.
Proof.
  intros [Hk1 Hk2] Hm Hi (m & rep & H1 & H2 & H3 & H4 & H5). exists m, rep.
  split; [auto|]. split; [auto|]. split; [auto|]. split; [|auto]. unfold sat, lo_early in *. lia.
Qed.
Definition level_le (a b : level) : Prop :=
  match a, b with
  | Soft, Soft => True
  | Clean, (Clean | Firm | Marked) => True
  | Firm, (Firm | Marked) => True
  | Marked, Marked => True
  | _, _ => False
  end.
Lemma outcome_mono {A} l l' k k' pos ins rem (r : res T A) :
  level_le l l' -> later k <= later k' -> (l' = Soft \/ now k <= now k') ->
  outcome l' k pos ins rem r -> outcome l k' pos ins rem r.
Proof.
  intros Hl H1 H2 H. destruct r as [o|e|rc]; [exact I| |].
  - destruct H as [Ha Hb]. split; [exact Ha|]. destruct Hb as [Hb|[Hb|Hb]]; auto; subst; destruct l; simpl in Hl; auto; contradiction.
  - assert (HL : forall k pos ins, late k pos ins rc -> late k pos ins rc) by auto.
    destruct l', l; simpl in Hl; try contradiction; simpl in *.
    + intros C. eapply late_mono; eauto.
    + destruct H2 as [H2|H2]; [discriminate|]. destruct H as [H|H]; [left; eapply late_mono; eauto|].
      right. eapply early_mono; eauto. split; auto.
    + destruct H2 as [H2|H2]; [discriminate|]. destruct H as [H|H]; [left; eapply late_mono; eauto|].
      right. eapply early_mono; eauto. split; auto.
    + destruct H2 as [H2|H2]; [discriminate|]. destruct H as [H|H]; [left; eapply late_mono; eauto|].
      right. eapply early_mono; eauto. split; auto.
    + destruct H2 as [H2|H2]; [discriminate|]. destruct H as [[_ H]|H]; [left; eapply late_mono; eauto|].
      right. eapply (early_mono True False); eauto. split; auto.
    + destruct H2 as [H2|H2]; [discriminate|]. destruct H as [[_ H]|H]; [left; eapply late_mono; eauto|].
      right. eapply (early_mono True False); eauto. split; auto.
    + destruct H2 as [H2|H2]; [discriminate|]. destruct H as [[C H]|H]; [left; split; auto; eapply late_mono; eauto|].
      right. eapply early_mono; eauto. split; auto.
Qed.

(** result methods *)
Definition keeps {A B} (r : repair T A) (r' : repair T B) : Prop :=
  r_pos r' = r_pos r /\ r_ins r' = r_ins r /\ (r_prio r <> None -> r_prio r' <> None).
Lemma late_keeps {A B} k pos ins (rc : recr T A) (rc' : recr T B) :
  (forall x, In x (rc_reps rc) -> exists y, In y (rc_reps rc') /\ keeps x y) ->
  late k pos ins rc -> late k pos ins rc'.
Proof.
  intros H (rep & H1 & H2 & H3). destruct (H rep H1) as (y & Hy & K1 & K2 & _).
  exists y. rewrite K1, K2. auto.
Qed.
Lemma early_keeps {A B} mk k pos ins rem (rc : recr T A) (rc' : recr T B) :
  (forall x, In x (rc_reps rc) -> exists y, In y (rc_reps rc') /\ keeps x y) ->
  early mk k pos ins rem rc -> early mk k pos ins rem rc'.
Proof.
  intros H (m & rep & H1 & H2 & H3 & H4 & H5). destruct (H rep H2) as (y & Hy & K1 & K2 & K3).
  exists m, y. rewrite K1, K2. auto 10.
Qed.
Lemma outcome_keeps {A B} l k pos ins rem (rc : recr T A) (rc' : recr T B) :
  (forall x, In x (rc_reps rc) -> exists y, In y (rc_reps rc') /\ keeps x y) ->
  rc_con rc' = rc_con rc ->
  outcome l k pos ins rem (RRec rc) -> outcome l k pos ins rem (RRec rc').
Proof.
  intros H C K. pose proof (fun k pos => late_keeps k pos ins _ _ H) as L.
  pose proof (fun mk => early_keeps mk k pos ins rem _ _ H) as Y.
  destruct l; simpl in *; rewrite ?C; intuition.
Qed.
Lemma map_keeps {A B} (f : repair T A -> repair T B) l :
  (forall x, keeps x (f x)) -> forall x, In x l -> exists y, In y (map f l) /\ keeps x y.
Proof. intros H x Hx. exists (f x). split; [apply in_map; auto|auto]. Qed.
Lemma mapM_keeps {A B} (f : A -> out B) l l' :
  mapM (rep_fmap (T:=T) f) l = Ret l' -> forall x, In x l -> exists y, In y l' /\ keeps x y.
Proof.
  revert l'. induction l as [|a l IH]; simpl; intros l' H x Hx; [destruct Hx|].
  apply obind_ret in H as [y [H1 H]]. apply obind_ret in H as [ys [H2 H]]. injection H as <-.
  destruct Hx as [<-|Hx].
  - exists y. split; [left; auto|]. unfold rep_fmap in H1. apply obind_ret in H1 as [v [_ H1]].
    injection H1 as <-. repeat split; auto.
  - destruct (IH _ H2 x Hx) as (z & Hz & K). exists z. split; [right; auto|auto].
Qed.
Lemma outcome_fmap {A B} (f : A -> out B) l k pos ins rem r r' :
  outcome l k pos ins rem r -> res_fmap f r = Ret r' -> outcome l k pos ins rem r'.
Proof.
  destruct r as [o|e|rc]; intros H Hf; simpl in Hf.
  - apply obind_ret in Hf as [o' [_ Hf]]. injection Hf as <-. exact I.
  - injection Hf as <-. exact H.
  - apply obind_ret in Hf as [rc' [H1 Hf]]. injection Hf as <-.
    unfold rec_fmap in H1. apply obind_ret in H1 as [reps [H2 H1]]. injection H1 as <-.
    eapply outcome_keeps; [| |exact H]; [|reflexivity]. apply (mapM_keeps f). exact H2.
Qed.
Lemma outcome_exp {A} x l k pos ins rem (r : res T A) :
  outcome l k pos ins rem r -> outcome l k pos ins rem (res_set_exp x r).
Proof.
  destruct r as [o|e|rc]; intros H; [exact I| |].
  - destruct H as [H1 H2]. simpl. unfold er_set_exp. rewrite H1. simpl. auto.
  - eapply outcome_keeps; [| |exact H]; [|reflexivity]. apply map_keeps. intros y; repeat split; auto.
Qed.
Lemma outcome_ctx {A} x l k pos ins rem (r : res T A) :
  outcome l k pos ins rem r -> outcome l k pos ins rem (res_set_ctx x r).
Proof.
  destruct r as [o|e|rc]; intros H; [exact I|exact H|].
  eapply outcome_keeps; [| |exact H]; [|reflexivity]. apply map_keeps. intros y; repeat split; auto.
Qed.
Lemma outcome_prep_false {A} x l k pos ins rem (r : res T A) :
  outcome l k pos ins rem r -> outcome l k pos ins rem (res_prepend x false r).
Proof.
  destruct r as [o|e|rc]; intros H; [exact I| |].
  - destruct H as [H1 H2]. simpl. unfold er_prepend. rewrite H1. simpl. auto.
  - eapply outcome_keeps; [| |exact H].
    + apply map_keeps. intros y; repeat split; auto.
    + simpl. destruct (rc_con rc); reflexivity.
Qed.
(** after something was read, with the full allowance *)
Lemma outcome_prep_true {A} x l k k2 pos pos' ins rem (r : res T A) :
  pos < pos' -> (now k2 <= later k) -> later k2 <= later k ->
  outcome Firm k2 pos' ins (Some ins) r -> outcome l k pos ins rem (res_prepend x true r).
Proof.
  intros Hp H1 H2 H. destruct r as [o|e|rc]; [exact I| |].
  - destruct H as [_ [H|[H|H]]]; discriminate.
  - assert (L : late k pos ins (rec_prepend x true rc)).
    { eapply late_keeps; [apply map_keeps; intros y; repeat split; auto|].
      destruct H as [H|(m & rep & H3 & H4 & H5 & H6 & _)]; [eapply late_mono; [..|exact H]; auto; lia|].
      injection H3 as <-. exists rep. split; [auto|]. split; [lia|]. unfold sat, lo_early, lo_late in *. lia. }
    assert (C : rc_con (rec_prepend x true rc) = true) by (simpl; destruct (rc_con rc); auto).
    destruct l; simpl; auto.
Qed.
(** no recovery allowed: only late repairs *)
Lemma outcome_none {A} l l' k k' pos ins rem (rc : recr T A) :
  rc_con rc = true -> later k <= later k' ->
  outcome l k pos ins None (RRec rc) -> outcome l' k' pos ins rem (RRec rc).
Proof.
  intros C Hk H. assert (L : late k' pos ins rc).
  { eapply late_mono; [exact Hk|apply Nat.le_refl|intros ? K; exact K|].
    destruct l; simpl in H; auto; destruct H as [H|(m & _ & H & _)]; try discriminate; intuition. }
  destruct l'; simpl; auto.
Qed.

(** ** Continuing a repair *)
Lemma flat_mapM_incl {A B} (f : A -> out (list B)) l l' x :
  flat_mapM f l = Ret l' -> In x l -> exists ys, f x = Ret ys /\ incl ys l'.
Proof.
  revert l'. induction l as [|a l IH]; simpl; intros l' H Hx; [destruct Hx|].
  apply obind_ret in H as [y [H1 H]]. apply obind_ret in H as [ys [H2 H]]. injection H as <-.
  destruct Hx as [->|Hx].
  - exists y. split; auto. apply incl_appl, incl_refl.
  - destruct (IH _ H2 Hx) as (z & Hz & K). exists z. split; auto. apply incl_appr; auto.
Qed.
Definition okL (ins : Z) (k : need) (L : Z) : Prop :=
  (ins < 0 /\ L < 0)%Z \/ (0 <= L <= ins /\ Z.of_nat (now k) <= L)%Z.
Lemma cont_hit {A B C} ins (F : A -> nat -> ctx T -> Z -> out (res T B)) (merge : A -> B -> C) rep ys k2 :
  cont_one ins F merge rep = Ret ys ->
  okL ins k2 (r_ins rep) ->
  (forall rb, F (r_val rep) (r_pos rep) (r_ctx rep) (r_ins rep) = Ret rb ->
     outcome Firm k2 (r_pos rep) ins (Some (r_ins rep)) rb /\
     match rb with ROk o => r_pos rep <= ok_pos o | _ => True end) ->
  exists rep', In rep' ys /\ r_pos rep <= r_pos rep' /\ r_prio rep' = r_prio rep /\
    sat ins (lo_early k2 ins (r_ins rep)) (r_ins rep').
Proof.
  intros H HL HF. unfold cont_one in H. apply obind_ret in H as [rb [Hb H]].
  destruct (HF _ Hb) as [HO HP]. destruct rb as [o|e|rc].
  - injection H as <-. eexists. split; [left; reflexivity|]. simpl. split; [exact HP|]. split; [auto|].
    unfold sat, lo_early, okL in *. destruct (Nat.eqb _ _); lia.
  - destruct HO as [_ [HO|[HO|HO]]]; discriminate.
  - injection H as <-. simpl in HO. destruct HO as [(r2 & H1 & H2 & H3)|(m & r2 & H0 & H1 & H2 & H3 & _)].
    + exists (cont_rec merge rep r2). split; [apply in_map; auto|]. simpl. split; [lia|]. split; [auto|].
      unfold sat, lo_early, lo_late, okL in *. lia.
    + injection H0 as <-. exists (cont_rec merge rep r2). split; [apply in_map; auto|]. simpl. split; [lia|].
      split; [auto|]. exact H3.
Qed.

Lemma outcome_cont {A B C} l k1 k2 k pos ins rem (ra : recr T A)
    (F : A -> nat -> ctx T -> Z -> out (res T B)) (merge : A -> B -> C) r :
  need_le (need_seq k1 k2) k -> okb l k ins rem ->
  outcome l k1 pos ins rem (RRec ra) ->
  (forall rep rb, In rep (rc_reps ra) -> pos <= r_pos rep -> (l = Soft -> pos < r_pos rep) ->
     okL ins k2 (r_ins rep) ->
     F (r_val rep) (r_pos rep) (r_ctx rep) (r_ins rep) = Ret rb ->
     outcome Firm k2 (r_pos rep) ins (Some (r_ins rep)) rb /\
     match rb with ROk o => r_pos rep <= ok_pos o | _ => True end) ->
  continue_parse ra ins F merge = Ret r -> outcome l k pos ins rem r.
Proof.
  intros [Hk1 Hk2] [Hb1 Hb2] H HF Hc. simpl in Hk1, Hk2.
  apply continue_ret in Hc as (reps & Hm & ->).
  assert (L : late k1 pos ins ra ->
    late k pos ins (Recd reps (rc_min ra) (rc_loc ra) (rc_exp ra) (rc_con ra))).
  { intros (rep & H1 & H2 & H3). destruct (flat_mapM_incl _ _ _ _ Hm H1) as (ys & Hy & Hi).
    assert (HL : okL ins k2 (r_ins rep)) by (unfold okL, sat, lo_late in *; lia).
    destruct (cont_hit _ _ _ _ _ _ Hy HL (fun rb K => HF rep rb H1 (Nat.lt_le_incl _ _ H2) (fun _ => H2) HL K))
      as (rep' & R1 & R2 & R3 & R4).
    exists rep'. split; [apply Hi; exact R1|]. split; [lia|]. unfold sat, lo_early, lo_late, okL in *. lia. }
  assert (Y : forall mk, l <> Soft -> early mk k1 pos ins rem ra ->
    early mk k pos ins rem (Recd reps (rc_min ra) (rc_loc ra) (rc_exp ra) (rc_con ra))).
  { intros mk Hs (m & rep & H0 & H1 & H2 & H3 & H4). destruct (flat_mapM_incl _ _ _ _ Hm H1) as (ys & Hy & Hi).
    specialize (Hb2 m H0).
    assert (HL : okL ins k2 (r_ins rep)) by (unfold okL, sat, lo_early in *; intuition lia).
    destruct (cont_hit _ _ _ _ _ _ Hy HL (fun rb K => HF rep rb H1 H2 (fun e => False_ind _ (Hs e)) HL K))
      as (rep' & R1 & R2 & R3 & R4).
    exists m, rep'. split; [exact H0|]. split; [apply Hi; exact R1|]. split; [lia|]. split.
    - unfold sat, lo_early, lo_late, okL in *. lia.
    - rewrite R3. exact H4. }
  destruct l; simpl in *.
  - auto.
  - destruct H as [H|H]; [left; auto|right; apply Y; auto; discriminate].
  - destruct H as [H|H]; [left; auto|right; apply Y; auto; discriminate].
  - destruct H as [[C1 H]|H]; [left; auto|right; apply Y; auto; discriminate].
Qed.


Lemma outcome_early {A} l k pos ins m (rc : recr T A) rep :
  rc_con rc = false -> (l = Soft \/
   (In rep (rc_reps rc) /\ pos <= r_pos rep /\ sat ins (lo_early k ins m) (r_ins rep) /\
    (l = Marked -> r_prio rep <> None))) ->
  outcome l k pos ins (Some m) (RRec rc).
Proof.
  intros C [->|(H1 & H2 & H3 & H4)]; [simpl; congruence|].
  destruct l; simpl; try congruence; right; exists m, rep; repeat (split; [assumption || reflexivity|]); auto; tauto.
Qed.
Lemma join_left {A} (a b : recr T A) : incl (rc_reps a) (rc_reps (join_repairs a b)).
Proof.
  unfold join_repairs. destruct (rc_min a), (rc_con a); try destruct (rc_con b); simpl; apply incl_appl, incl_refl.
Qed.
Lemma join_con {A} (a b : recr T A) : rc_con (join_repairs a b) = rc_con a || rc_con b.
Proof.
  unfold join_repairs. destruct (rc_min a), (rc_con a) eqn:Ca; try destruct (rc_con b) eqn:Cb; simpl; rewrite ?Ca; auto.
Qed.
Lemma join_right {A} (a b : recr T A) x : minok (RRec a) -> res_prios (RRec b) ->
  In x (rc_reps b) -> r_prio x <> None -> In x (rc_reps (join_repairs a b)).
Proof.
  intros Ha [Hb _] Hx Hp. pose proof (Hb _ Hx) as Hq.
  assert (G : In x (match rc_min a with
    | Some mp => rc_reps a ++ filter (fun r => match r_prio r with Some p => Nat.ltb p mp | None => false end) (rc_reps b)
    | None => rc_reps a ++ filter (fun r => match r_prio r with Some _ => true | None => false end) (rc_reps b)
    end)).
  { destruct (rc_min a) as [mp|] eqn:M; apply in_or_app; right; apply filter_In; split; auto.
    - simpl in Ha. specialize (Ha mp M). destruct (r_prio x) as [p0|]; [|congruence].
      apply Nat.ltb_lt. destruct Hq as [Hq|Hq]; [discriminate|]. injection Hq as ->. lia.
    - destruct (r_prio x); congruence. }
  unfold join_repairs. destruct (rc_min a), (rc_con a); try destruct (rc_con b); exact G.
Qed.

Variable s : list T.
Notation len := (List.length s).
Hypothesis HE : wf_env E.
Variable claim : nat -> nat -> level -> need -> Prop.
Hypothesis Hclaim : claims_hold E claim.
Notation fills := (fills E claim).

Definition sound (n : nat) : Prop := forall A (g : gram A) b l k pos c ins rem r,
  wf g -> pos <= len -> len - pos <= b -> fills b l k g -> okb l k ins rem ->
  full E n g s pos c ins rem = Ret r -> outcome l k pos ins rem r.

Lemma okb_none l k ins rem l' : okb l k ins rem -> okb l' k ins None.
Proof. intros [H1 H2]. split; auto. discriminate. Qed.
Lemma okb_le l l' k k' ins rem : (l' = Soft \/ l <> Soft) -> okb l k ins rem ->
  later k' <= later k -> (l' = Soft \/ now k' <= now k) -> okb l' k' ins rem.
Proof.
  intros Hl [H1 H2] H3 H4. split; [lia|]. intros m Hm. specialize (H2 m Hm).
  destruct H2 as [H2|[H2 H5]]; auto. right. split; auto.
  destruct H4 as [H4|H4]; auto. destruct H5 as [H5|H5]; [|right; lia].
  destruct Hl as [Hl|Hl]; auto. contradiction.
Qed.

Lemma ok_pos_info n A (g : gram A) pos c ins rem o : wf g -> pos <= len ->
  full E n g s pos c ins rem = Ret (ROk o) ->
  pos <= ok_pos o <= len /\ (ok_con o = true -> pos < ok_pos o) /\ (ok_con o = false -> ok_pos o = pos) /\
  (eats E g -> ok_con o = true).
Proof.
  intros Hg Hp H. destruct (full_info E s HE _ _ _ _ _ _ _ _ Hg Hp H) as (H1 & H2 & H3).
  split; [auto|]. split; [intros C; rewrite C in H2; symmetry in H2; apply Nat.ltb_lt in H2; auto|].
  assert (G : ok_con o = false -> ok_pos o = pos).
  { intros C; rewrite C in H2; symmetry in H2; apply Nat.ltb_ge in H2; lia. }
  split; [auto|]. intros He. destruct (ok_con o) eqn:C; auto. exfalso.
  rewrite (G eq_refl) in H3. rewrite slice_nil in H3. exact (He _ H3).
Qed.
Lemma rec_pos_info n A (g : gram A) pos c ins rem rc rep : wf g -> pos <= len ->
  full E n g s pos c ins rem = Ret (RRec rc) -> In rep (rc_reps rc) -> pos <= r_pos rep <= len.
Proof. intros Hg Hp H Hin. exact (proj1 (full_info E s HE _ _ _ _ _ _ _ _ Hg Hp H rep Hin)). Qed.

Lemma many_outcome n A (p : gram A) (b : nat) k k' ins : sound n -> wf p -> later k' <= later k ->
  okb Soft k ins None -> fills b Soft k' p ->
  forall j con v pos c r, pos <= len -> len - pos <= b ->
  many_full (full E n p) j con v s pos c ins = Ret r ->
  match r with
  | ROk o => pos <= ok_pos o
  | RErr _ => False
  | RRec rc => rc_con rc = true /\ late k pos ins rc
  end.
Proof.
  intros IH Hw Hk Hb Hf. induction j as [|j IHj]; intros con v pos c r Hp Hl H; [discriminate|]. simpl in H.
  apply obind_ret in H as [r0 [H0 H]].
  assert (HO : outcome Soft k' pos ins None r0).
  { eapply IH; [exact Hw|exact Hp|exact Hl|exact Hf| |exact H0].
    destruct Hb as [Hb _]. split; [lia|discriminate]. }
  destruct r0 as [o|e|rc].
  - destruct (ok_pos_info _ _ _ _ _ _ _ _ Hw Hp H0) as (P1 & P2 & _ & _).
    destruct (ok_con o); [|discriminate]. specialize (P2 eq_refl).
    apply IHj in H; [|lia|lia]. destruct r as [o'|e|rc]; [lia|auto|]. destruct H as [C L]. split; auto.
    eapply late_mono; [..|exact L]; auto. lia.
  - destruct HO as [C _]. rewrite C in H. injection H as <-. auto.
  - pose proof (full_none_rec_con E n A p s pos c ins rc H0) as C. specialize (HO C).
    pose proof H as Hc. apply continue_ret in Hc as (reps & Hm & ->). split; [exact C|].
    destruct HO as (rep & R1 & R2 & R3).
    destruct (flat_mapM_incl _ _ _ _ Hm R1) as (ys & Hy & Hi).
    pose proof (rec_pos_info _ _ _ _ _ _ _ _ _ Hw Hp H0 R1) as P.
    destruct Hb as [Hb _].
    assert (HL : okL ins (Need 0 (later k)) (r_ins rep)) by (unfold okL, sat, lo_late in *; simpl; lia).
    destruct (cont_hit _ _ _ _ _ (Need 0 (later k)) Hy HL) as (rep' & Q1 & Q2 & Q3 & Q4).
    + intros rb Hrb. apply IHj in Hrb; [|lia|lia]. destruct rb as [o|e|rc2]; [split; [exact I|auto]|contradiction|].
      split; [|exact I]. destruct Hrb as [_ Hrb]. left. exact Hrb.
    + exists rep'. split; [apply Hi; auto|]. split; [lia|]. unfold sat, lo_early, lo_late, okL in *. simpl in *. lia.
Qed.

Lemma with_outcome n A (p : gram A) mk lab b l k k' pos c ins rem r : sound n -> wf p -> pos <= len ->
  len - pos <= b -> later k' <= later k -> fills b Soft k' p -> (l = Soft \/ 1 <= now k) -> okb l k ins rem ->
  recover_with_full (full E n p) mk lab s pos c ins rem = Ret r -> outcome l k pos ins rem r.
Proof.
  intros IH Hw Hp Hl Hk Hf Hn Hb H. unfold recover_with_full in H. destruct rem as [m|].
  - apply obind_ret in H as [r0 [H0 H]].
    assert (HO : outcome Soft k' pos ins (Some m) r0).
    { eapply IH; [exact Hw|exact Hp|exact Hl|exact Hf| |exact H0].
      eapply okb_le; [left; reflexivity|exact Hb|exact Hk|left; reflexivity]. }
    assert (Hm : l = Soft \/ m <> 0%Z).
    { destruct Hn as [Hn|Hn]; auto. destruct Hb as [_ Hb]. specialize (Hb m eq_refl).
      destruct Hb as [Hb|[Hb [Hb'|Hb']]]; auto; right; lia. }
    assert (HS : forall x lb lc xs, sat ins (lo_early k ins m) (r_ins (make_user_insert m (x:A) pos c lc lb xs)) \/ l = Soft).
    { intros. destruct Hn as [Hn|Hn]; auto. destruct Hb as [Hb1 Hb]. specialize (Hb m eq_refl).
      destruct Hb as [Hb|[Hb [Hb'|Hb']]]; auto; left; unfold sat, lo_early; simpl; lia. }
    destruct r0 as [o|e|rc].
    + injection H as <-. exact I.
    + destruct HO as [C _]. cbn [res_con] in H. rewrite C in H. destruct (Z.eqb_spec m 0).
      * injection H as <-. destruct Hm as [->|Hm]; [|congruence]. split; auto.
      * apply obind_ret in H as [x [_ H]]. injection H as <-.
        eapply outcome_early; [reflexivity|]. destruct (HS x (lab x) (get_loc c s pos) (res_exp (RErr (T:=T) (A:=A) e))) as [K|K]; auto.
        right. split; [left; reflexivity|]. split; [simpl; lia|]. split; [exact K|]. simpl; discriminate.
    + cbn [res_con] in H. destruct (rc_con rc) eqn:C.
      * injection H as <-. simpl in HO. specialize (HO C). assert (L : late k pos ins rc) by (eapply late_mono; [..|exact HO]; auto).
        destruct l; simpl; auto.
      * destruct (Z.eqb_spec m 0).
        -- injection H as <-. destruct Hm as [->|Hm]; [|congruence]. simpl. congruence.
        -- apply obind_ret in H as [x [_ H]]. injection H as <-.
           eapply outcome_early; [reflexivity|]. destruct (HS x (lab x) (get_loc c s pos) (res_exp (RRec rc))) as [K|K]; auto.
           right. split; [left; reflexivity|]. split; [simpl; lia|]. split; [exact K|]. simpl; discriminate.
  - assert (HO : outcome Soft k' pos ins None r).
    { eapply IH; [exact Hw|exact Hp|exact Hl|exact Hf| |exact H].
      destruct Hb as [Hb _]. split; [lia|discriminate]. }
    destruct r as [o|e|rc]; [exact I|destruct HO; split; auto|].
    pose proof (full_none_rec_con E n A p s pos c ins rc H) as C. eapply outcome_none; eauto.
Qed.

Lemma alt_outcome n A (p q : gram A) b l k pos c ins rem r : sound n -> wf p -> wf q -> pos <= len ->
  len - pos <= b -> fills b l k (GAlt p q) -> okb l k ins rem ->
  alt_full (full E n p) (full E n q) s pos c ins rem = Ret r -> outcome l k pos ins rem r.
Proof.
  intros IH Hw1 Hw2 Hp Hl Hf Hb H. destruct Hf as (k1 & k2 & Hk1 & Hk2 & Hf).
  destruct Hk1 as [Hk1 Hk1'], Hk2 as [Hk2 Hk2'].
  assert (F1 : exists l1, fills b l1 k1 p) by (intuition eauto).
  assert (F2 : exists l2, fills b l2 k2 q) by (intuition eauto).
  destruct F1 as [l1 F1], F2 as [l2 F2].
  unfold alt_full in H. apply obind_ret in H as [ra [Ha H]].
  assert (HA : outcome l1 k1 pos ins None ra).
  { eapply IH; [exact Hw1|exact Hp|exact Hl|exact F1| |exact Ha]. destruct Hb as [Hb _]. split; [lia|discriminate]. }
  assert (Ca : forall rc, ra = RRec rc -> rc_con rc = true).
  { intros rc ->. exact (full_none_rec_con E n A p s pos c ins rc Ha). }
  destruct ra as [oa|[la xa ca]|[pa ma la xa ca]].
  { injection H as <-. exact I. }
  2:{ specialize (Ca _ eq_refl). cbn in Ca. subst ca. injection H as <-. eapply outcome_none; [reflexivity|exact Hk1'|exact HA]. }
  destruct HA as [HA _]. cbn in HA. subst ca. clear Ca.
  apply obind_ret in H as [rb [Hq H]].
  assert (HB : outcome l2 k2 pos ins None rb).
  { eapply IH; [exact Hw2|exact Hp|exact Hl|exact F2| |exact Hq]. destruct Hb as [Hb _]. split; [lia|discriminate]. }
  assert (Cb : forall rc, rb = RRec rc -> rc_con rc = true).
  { intros rc ->. exact (full_none_rec_con E n A q s pos c ins rc Hq). }
  destruct rb as [ob|eb|rcb].
  { destruct (res_con _); injection H as <-; exact I. }
  2:{ specialize (Cb _ eq_refl). cbn [res_con] in H. rewrite Cb in H. injection H as <-.
      eapply outcome_none; [exact Cb|exact Hk2'|exact HB]. }
  destruct HB as [HB _]. cbn [res_con] in H. rewrite HB in H. clear Cb.
  unfold alt_recover in H. cbv zeta in H. destruct rem as [m|]; [|injection H as <-; split; auto].
  apply obind_ret in H as [rra [Hra H]]. apply obind_ret in H as [rrb [Hrb H]].
  assert (Nra : forall o, rra <> ROk o).
  { intros o ->. apply full_ok_iff in Hra. apply (full_ok_iff E n A p s pos c ins None) in Hra. congruence. }
  assert (Nrb : forall o, rrb <> ROk o).
  { intros o ->. apply full_ok_iff in Hrb. apply (full_ok_iff E n A q s pos c ins None) in Hrb. congruence. }
  assert (Fq : exists e', fast E n q s pos c = Ret (SErr e') /\ er_con e' = false).
  { destruct (full_none_unconsumed E n A q s pos c ins _ Hq I HB) as (e' & _ & ? & ?). eauto. }
  assert (Steady : attempt_free E q -> forall rc, rrb = RRec rc -> rc_con rc = false).
  { intros Ha' rc ->. destruct Fq as (e' & Fq & Ce). exact (proj1 (steady n A q s pos c ins (Some m) e' _ Ha' Fq Ce Hrb)). }
  set (x := Append xa (res_exp (RErr (T:=T) (A:=A) eb))) in H.
  assert (R1 : forall l1, fills b l1 k1 p -> (l1 = Soft \/ l <> Soft) -> outcome l1 k1 pos ins (Some m) rra).
  { intros l' Hf' Hs. eapply IH; [exact Hw1|exact Hp|exact Hl|exact Hf'| |exact Hra]. eapply okb_le; eauto. }
  assert (R2 : forall l2, fills b l2 k2 q -> (l2 = Soft \/ l <> Soft) -> outcome l2 k2 pos ins (Some m) rrb).
  { intros l' Hf' Hs. eapply IH; [exact Hw2|exact Hp|exact Hl|exact Hf'| |exact Hrb]. eapply okb_le; eauto. }
  pose proof (full_min E n _ _ _ _ _ _ _ _ Hra) as Min.
  pose proof (full_prios E n _ _ _ _ _ _ _ _ Hrb) as Pri.
  clear F1 F2 l1 l2 Ha Hq Hra Hrb.
  (* the case analysis on the two results *)
  assert (Left : forall l', l' <> Soft -> level_le l l' -> outcome l' k1 pos ins (Some m) rra ->
            (l' = Clean -> match rra with RErr _ => False | _ => True end) -> outcome l k pos ins (Some m) r).
  { intros l' Hs Hle HO Hc. destruct rra as [oa|ea|a]; [destruct (Nra _ eq_refl)| |].
    - destruct HO as [_ [HO|[HO|HO]]]; try discriminate; [contradiction|]. specialize (Hc HO). contradiction.
    - assert (HO' : outcome l k pos ins (Some m) (RRec a)) by (eapply outcome_mono; [exact Hle|exact Hk1'|right; exact Hk1|exact HO]).
      destruct rrb as [ob|eb'|b']; injection H as <-; [destruct (Nrb _ eq_refl)|..];
        [exact (outcome_exp x _ _ _ _ _ _ HO')|].
      apply (outcome_exp x _ _ _ _ _ (RRec (join_repairs a b'))).
      assert (HJ : forall y, In y (rc_reps a) -> In y (rc_reps (join_repairs a b'))) by (apply join_left).
      destruct l, l'; simpl in Hle; try contradiction; simpl in HO' |- *; rewrite ?join_con.
      all: try (exfalso; apply Hs; reflexivity).
      all: destruct HO' as [HO'|HO']; [left|right; eapply early_mono; [split; apply Nat.le_refl|intros G; exact G|exact HJ|exact HO']].
      all: try (eapply late_mono; [apply Nat.le_refl|apply Nat.le_refl|exact HJ|exact HO']).
      destruct HO' as [C HO']. rewrite C. split; [reflexivity|].
      eapply late_mono; [apply Nat.le_refl|apply Nat.le_refl|exact HJ|exact HO']. }
  assert (Right : (forall l2, level_le l l2 -> outcome l2 k2 pos ins (Some m) rrb -> (l <> Soft \/ l2 = Soft) ->
            match rra with RErr _ => True | _ => False end -> outcome l k pos ins (Some m) r)).
  { intros l2 Hle HO Hs Hra. destruct rra as [oa|ea|a]; try contradiction.
    assert (HO' : outcome l k pos ins (Some m) rrb).
    { eapply outcome_mono; [exact Hle|exact Hk2'|right; exact Hk2|exact HO]. }
    destruct rrb as [ob|eb'|b']; [destruct (Nrb _ eq_refl)| |]; injection H as <-.
    - destruct HO' as [HO1 HO2]. split; [reflexivity|exact HO2].
    - exact (outcome_exp x _ _ _ _ _ _ HO'). }
  destruct Hf as [(-> & P & Q & Hat)|[(-> & P & Q)|[(Hll & P & Q)|[(Hll & P & Q)|[(Hll & P & Q)|(Hll & P & Q & Hat)]]]]].
  - specialize (R1 _ P (or_introl eq_refl)). specialize (R2 _ Q (or_introl eq_refl)).
    destruct rra as [oa|ea|a]; [destruct (Nra _ eq_refl)|apply (Right Soft); simpl; auto|].
    assert (HO' : outcome Soft k pos ins (Some m) (RRec a)) by (eapply outcome_mono; [..|exact R1]; simpl; auto).
    destruct rrb as [ob|eb'|b']; injection H as <-; [destruct (Nrb _ eq_refl)|..];
      [exact (outcome_exp x _ _ _ _ _ _ HO')|].
    apply (outcome_exp x _ _ _ _ _ (RRec (join_repairs a b'))). simpl. rewrite join_con, (Steady Hat _ eq_refl).
    rewrite orb_false_r. intros C. eapply late_mono; [apply Nat.le_refl|apply Nat.le_refl|exact (join_left a b')|exact (HO' C)].
  - assert (S1 : outcome Clean k1 pos ins (Some m) rra) by (apply R1; auto; right; discriminate).
    assert (S2 : outcome Clean k2 pos ins (Some m) rrb) by (apply R2; auto; right; discriminate).
    destruct rra as [oa|ea|a] eqn:Q1; [destruct (Nra _ eq_refl)|apply (Right Clean); simpl; auto; left; discriminate|].
    apply (Left Clean); simpl; auto; discriminate.
  - assert (Hs : l <> Soft) by (destruct Hll; subst; discriminate).
    apply (Left Firm); try discriminate; auto. destruct Hll; subst; exact I.
  - assert (Hs : l <> Soft) by (destruct Hll; subst; discriminate).
    assert (S1 : outcome Clean k1 pos ins (Some m) rra) by (apply R1; auto).
    assert (S2 : outcome Firm k2 pos ins (Some m) rrb) by (apply R2; auto).
    destruct rra as [oa|ea|a] eqn:Q1; [destruct (Nra _ eq_refl)| |].
    + apply (Right Firm); auto; try exact I. destruct Hll; subst; exact I.
    + destruct Hll as [->| ->]; [apply (Left Clean); simpl; auto; discriminate|].
      (* Firm from a Clean left alternative that offers repairs *)
      apply (Left Firm); simpl; auto; discriminate.
  - apply (Left Marked); try discriminate; auto. destruct l; simpl; auto; congruence.
  - assert (Hle : level_le l Marked) by (destruct l; simpl; auto; congruence).
    assert (S1 : outcome Soft k1 pos ins (Some m) rra) by (apply R1; auto).
    assert (S2 : outcome Marked k2 pos ins (Some m) rrb) by (apply R2; auto).
    destruct rra as [oa|ea|a] eqn:Q1; [destruct (Nra _ eq_refl)|apply (Right Marked); simpl; auto|].
    destruct rrb as [ob|eb'|b']; [destruct (Nrb _ eq_refl)| |]; injection H as <-.
    + destruct S2 as [_ [S2|[S2|S2]]]; discriminate.
    + apply (outcome_exp x _ _ _ _ _ (RRec (join_repairs a b'))).
      simpl in S2. rewrite (Steady Hat _ eq_refl) in S2. destruct S2 as [[S2 _]|S2]; [discriminate|].
      assert (Y : early True k pos ins (Some m) (join_repairs a b')).
      { destruct S2 as (m' & rep & Y1 & Y2 & Y3 & Y4 & Y5). exists m', rep. split; [auto|].
        split; [apply join_right; auto|]. split; [auto|]. split; [|auto]. unfold sat, lo_early in *. lia. }
      destruct l; simpl; try congruence; auto.
      * right. eapply (early_mono True False); [split; apply Nat.le_refl|auto|intros ? G; exact G|exact Y].
      * right. eapply (early_mono True False); [split; apply Nat.le_refl|auto|intros ? G; exact G|exact Y].
Qed.


Lemma fills_sound n : sound n.
Proof.
  induction n as [|n IH]; intros A g b l k pos c ins rem r Hw Hp Hl Hf Hb H; [discriminate|].
  pose proof (full_info E s HE _ _ _ _ _ _ _ _ Hw Hp H) as HI.
  pose proof (gall_node _ _ _ Hw) as Hnode. unfold wf in Hw.
  destruct g; cbn [full] in H; cbn [PatchSpec.fills] in Hf; simpl in Hw.
  - injection H as <-. exact I.
  - unfold purefn_full in H. apply obind_ret in H as [v [_ H]]. injection H as <-. exact I.
  - injection H as <-. split; auto.
  - unfold eof_full in H. destruct (Nat.eqb _ _); [injection H as <-; exact I|].
    destruct rem as [m|]; injection H as <-; [|split; auto].
    eapply outcome_early; [reflexivity|]. destruct Hb as [Hb1 Hb]. specialize (Hb m eq_refl).
    right. split; [left; reflexivity|]. split; [exact (proj1 (proj1 (HI _ (or_introl eq_refl))))|].
    split; [|discriminate]. unfold sat, lo_early. simpl. intuition lia.
  - unfold satisfy_full in H. apply obind_ret in H as [v [_ H]]. destruct v; [injection H as <-; exact I|].
    destruct rem as [m|]; [|injection H as <-; split; auto].
    apply obind_ret in H as [f [_ H]]. destruct f as [[j t]|]; injection H as <-; [|split; auto].
    eapply outcome_early; [reflexivity|]. destruct Hb as [Hb1 Hb]. specialize (Hb m eq_refl).
    right. split; [left; reflexivity|]. split; [exact (proj1 (proj1 (HI _ (or_introl eq_refl))))|].
    split; [|discriminate]. unfold sat, lo_early. simpl. intuition lia.
  - unfold sym_full in H. apply obind_ret in H as [v [_ H]]. destruct v; [injection H as <-; exact I|].
    destruct rem as [m|]; [|injection H as <-; split; auto].
    apply obind_ret in H as [f [_ H]]. destruct Hb as [Hb1 Hb]. specialize (Hb m eq_refl).
    assert (Hm : l = Soft \/ Z.eqb m 0 = false).
    { destruct Hf as [Hf|[Hf1 Hf]]; auto. destruct Hb as [Hb|[Hb [Hb'|Hb']]]; auto; right; apply Z.eqb_neq; lia. }
    assert (G : forall y, r_pos y = pos -> r_ins y = (m - 1)%Z -> forall rc : recr T T, rc_con rc = false ->
      (l = Soft \/ In y (rc_reps rc)) -> outcome l k pos ins (Some m) (RRec rc)).
    { intros y Hy1 Hy2 rc C Hin. eapply outcome_early; [exact C|]. destruct Hin as [Hin|Hin]; [left; auto|].
      destruct Hf as [Hf|[Hf1 Hf]]; [left; auto|].
      destruct Hb as [Hb|[Hb [Hb'|Hb']]]; [|left; auto|]; right;
        (split; [exact Hin|]; split; [lia|]; split; [|congruence]; rewrite Hy2; unfold sat, lo_early; lia). }
    destruct f as [[j t]|]; injection H as <-.
    + eapply (G (make_insert m x pos c (get_loc c s pos) l0 [l0])); auto. destruct Hm as [Hm|Hm]; [left; auto|right].
      simpl. rewrite Hm. left. reflexivity.
    + eapply (G (make_insert m x pos c (get_loc c s pos) l0 [l0])); auto. destruct Hm as [Hm|Hm]; [left; auto|right].
      simpl. rewrite Hm. left. reflexivity.
  - unfold literal_full in H. cbv zeta in H. destruct (starts_with _ _ _ _); [injection H as <-; exact I|].
    destruct rem as [m|]; [|injection H as <-; split; auto].
    apply obind_ret in H as [f [_ H]]. destruct Hb as [Hb1 Hb]. specialize (Hb m eq_refl).
    assert (Hm : l = Soft \/ Z.eqb m 0 = false).
    { destruct Hf as [Hf|[Hf1 Hf]]; auto. destruct Hb as [Hb|[Hb [Hb'|Hb']]]; auto; right; apply Z.eqb_neq; lia. }
    assert (G : forall y, r_pos y = pos -> r_ins y = (m - 1)%Z -> forall rc : recr T (list T), rc_con rc = false ->
      (l = Soft \/ In y (rc_reps rc)) -> outcome l k pos ins (Some m) (RRec rc)).
    { intros y Hy1 Hy2 rc C Hin. eapply outcome_early; [exact C|]. destruct Hin as [Hin|Hin]; [left; auto|].
      destruct Hf as [Hf|[Hf1 Hf]]; [left; auto|].
      destruct Hb as [Hb|[Hb [Hb'|Hb']]]; [|left; auto|]; right;
        (split; [exact Hin|]; split; [lia|]; split; [|congruence]; rewrite Hy2; unfold sat, lo_early; lia). }
    destruct f as [[j t]|]; injection H as <-.
    + eapply (G (make_insert m x pos c (get_loc c s pos) l0 [l0])); auto. destruct Hm as [Hm|Hm]; [left; auto|right].
      simpl. rewrite Hm. left. reflexivity.
    + eapply (G (make_insert m x pos c (get_loc c s pos) l0 [l0])); auto. destruct Hm as [Hm|Hm]; [left; auto|right].
      simpl. rewrite Hm. left. reflexivity.
  - unfold regexp_full in H. destruct (probe_re m s pos) as [[? ?]|] eqn:PR; [injection H as <-; exact I|].
    assert (Hf' : l = Soft \/ l = Clean).
    { destruct Hf as [Hf|[Hf|Hf]]; auto. destruct (Hf s pos Hp) as (e & v & He).
      unfold probe_re in PR. rewrite He in PR. discriminate. }
    clear Hf. rename Hf' into Hf.
    destruct rem as [z|]; [|injection H as <-; split; auto].
    apply obind_ret in H as [f [_ H]]. destruct f as [[j [e v]]|]; injection H as <-; [|split; auto].
    eapply outcome_early; [reflexivity|]. destruct Hb as [Hb1 Hb]. specialize (Hb z eq_refl).
    right. split; [left; reflexivity|]. split; [exact (proj1 (proj1 (HI _ (or_introl eq_refl))))|].
    split; [|discriminate]. unfold sat, lo_early. simpl. intuition lia.
  - unfold fmap_full in H. apply obind_ret in H as [r0 [H0 H]]. eapply outcome_fmap; [|exact H].
    eapply IH; eauto. apply Hw.
  - eapply alt_outcome; eauto; apply Hw.
  - (* bind *) destruct Hw as [_ [Hw1 Hw2]]. destruct Hf as (k1 & k2 & Hle & Hf). pose proof Hle as [Hk Hk']. simpl in Hk, Hk'.
    unfold bind_full in H. apply obind_ret in H as [ra [Ha H]].
    assert (HA : outcome l k1 pos ins rem ra).
    { eapply IH; [exact Hw1|exact Hp|exact Hl| | |exact Ha]; [destruct l; apply Hf|].
      eapply okb_le; [|exact Hb|lia|right; lia]. destruct l; auto; right; discriminate. }
    assert (HQ : forall v pos' c' L rb, pos <= pos' <= len -> (l = Soft -> pos < pos') -> okL ins k2 L ->
      full E n (f v) s pos' c' ins (Some L) = Ret rb ->
      outcome Firm k2 pos' ins (Some L) rb /\ match rb with ROk o => pos' <= ok_pos o | _ => True end).
    { intros v pos' c' L rb P1 P2 HL K. split.
      - assert (OB : okb Firm k2 ins (Some L)).
        { split; [destruct Hb; lia|]. intros m Hm. injection Hm as <-. unfold okL in HL. intuition lia. }
        destruct l.
        + specialize (P2 eq_refl). destruct b as [|b]; [lia|]. destruct Hf as (_ & Hf & _).
          eapply (IH _ (f v) b); [apply Hw2|lia|lia|apply Hf; reflexivity|exact OB|exact K].
        + eapply (IH _ (f v) b); [apply Hw2|lia|lia|apply Hf|exact OB|exact K].
        + eapply (IH _ (f v) b); [apply Hw2|lia|lia|apply Hf|exact OB|exact K].
        + destruct Hf as [_ [[_ Hf]|Hf]].
          * eapply (IH _ (f v) b); [apply Hw2|lia|lia|apply Hf|exact OB|exact K].
          * eapply (outcome_mono Firm Marked); [exact I|apply Nat.le_refl|right; apply Nat.le_refl|].
            eapply (IH _ (f v) b); [apply Hw2|lia|lia|apply Hf| |exact K].
            eapply okb_le; [|exact OB|lia|right; lia]. right; discriminate.
      - destruct rb as [o| |]; auto. eapply ok_pos_info in K; [lia|apply Hw2|lia]. }
    destruct ra as [o|e|ra].
    + destruct (ok_pos_info _ _ _ _ _ _ _ _ Hw1 Hp Ha) as (P1 & P2 & P3 & P4).
      destruct (ok_con o) eqn:C.
      * specialize (P2 eq_refl). apply obind_ret in H as [rb [Hq H]]. injection H as <-.
        apply (outcome_prep_true _ l k k2 pos (ok_pos o)); [exact P2|lia|lia|].
        refine (proj1 (HQ _ _ _ _ _ P1 (fun _ => P2) _ Hq)). unfold okL. destruct Hb; lia.
      * rewrite (P3 eq_refl) in H. apply obind_ret in H as [rb [Hq H]]. injection H as <-.
        apply outcome_prep_false.
        destruct l.
        -- destruct Hf as (_ & _ & [Hf|(k3 & Hk3 & Hf)]); [specialize (P4 Hf); discriminate|].
           eapply (outcome_mono Soft Soft k3 k); [exact I|exact Hk3|left; auto|].
           eapply (IH _ (f (ok_val o)) b); [apply Hw2|exact Hp|exact Hl|apply Hf| |exact Hq].
           eapply okb_le; [|exact Hb|lia|left; auto]; auto.
        -- eapply (outcome_mono Clean Firm k2 k); [exact I|lia|right; lia|].
           eapply (IH _ (f (ok_val o)) b); [apply Hw2|exact Hp|exact Hl|apply Hf| |exact Hq].
           eapply okb_le; [|exact Hb|lia|right; lia]. right; discriminate.
        -- eapply (outcome_mono Firm Firm k2 k); [exact I|lia|right; lia|].
           eapply (IH _ (f (ok_val o)) b); [apply Hw2|exact Hp|exact Hl|apply Hf| |exact Hq].
           eapply okb_le; [|exact Hb|lia|right; lia]. right; discriminate.
        -- destruct Hf as [_ [[Hf _]|Hf]]; [specialize (P4 Hf); discriminate|].
           eapply (outcome_mono Marked Marked k2 k); [exact I|lia|right; lia|].
           eapply (IH _ (f (ok_val o)) b); [apply Hw2|exact Hp|exact Hl|apply Hf| |exact Hq].
           eapply okb_le; [|exact Hb|lia|right; lia]. right; discriminate.
    + injection H as <-. destruct HA; split; auto.
    + eapply (outcome_cont l k1 k2); [exact Hle|exact Hb|exact HA| |exact H].
      intros rep rb Hin P1 P2 HL K. eapply HQ; [|exact P2|exact HL|exact K].
      split; [exact P1|]. exact (proj2 (rec_pos_info _ _ _ _ _ _ _ _ _ Hw1 Hp Ha Hin)).
  - (* seq *) destruct Hw as [_ [Hw1 Hw2]]. destruct Hf as (k1 & k2 & Hle & Hf). pose proof Hle as [Hk Hk']. simpl in Hk, Hk'.
    unfold seq_full in H. apply obind_ret in H as [ra [Ha H]].
    assert (HA : outcome l k1 pos ins rem ra).
    { eapply IH; [exact Hw1|exact Hp|exact Hl| | |exact Ha]; [destruct l; apply Hf|].
      eapply okb_le; [|exact Hb|lia|right; lia]. destruct l; auto; right; discriminate. }
    assert (HQ : forall pos' c' L rb, pos <= pos' <= len -> (l = Soft -> pos < pos') -> okL ins k2 L ->
      full E n g2 s pos' c' ins (Some L) = Ret rb ->
      outcome Firm k2 pos' ins (Some L) rb /\ match rb with ROk o => pos' <= ok_pos o | _ => True end).
    { intros pos' c' L rb P1 P2 HL K. split.
      - assert (OB : okb Firm k2 ins (Some L)).
        { split; [destruct Hb; lia|]. intros m Hm. injection Hm as <-. unfold okL in HL. intuition lia. }
        destruct l.
        + specialize (P2 eq_refl). destruct b as [|b]; [lia|]. destruct Hf as (_ & Hf & _).
          eapply (IH _ g2 b); [apply Hw2|lia|lia|apply Hf; reflexivity|exact OB|exact K].
        + eapply (IH _ g2 b); [apply Hw2|lia|lia|apply Hf|exact OB|exact K].
        + eapply (IH _ g2 b); [apply Hw2|lia|lia|apply Hf|exact OB|exact K].
        + destruct Hf as [_ [[_ Hf]|Hf]].
          * eapply (IH _ g2 b); [apply Hw2|lia|lia|apply Hf|exact OB|exact K].
          * eapply (outcome_mono Firm Marked); [exact I|apply Nat.le_refl|right; apply Nat.le_refl|].
            eapply (IH _ g2 b); [apply Hw2|lia|lia|apply Hf| |exact K].
            eapply okb_le; [|exact OB|lia|right; lia]. right; discriminate.
      - destruct rb as [o| |]; auto. eapply ok_pos_info in K; [lia|apply Hw2|lia]. }
    destruct ra as [o|e|ra].
    + destruct (ok_pos_info _ _ _ _ _ _ _ _ Hw1 Hp Ha) as (P1 & P2 & P3 & P4). cbv zeta in H.
      destruct (ok_con o) eqn:Cn.
      * specialize (P2 eq_refl). apply obind_ret in H as [rb [Hq H]]. apply obind_ret in H as [rb' [Hq' H]]. injection H as <-.
        apply (outcome_prep_true _ l k k2 pos (ok_pos o)); [exact P2|lia|lia|].
        eapply outcome_fmap; [|exact Hq'].
        refine (proj1 (HQ _ _ _ _ P1 (fun _ => P2) _ Hq)). unfold okL. destruct Hb; lia.
      * rewrite (P3 eq_refl) in H. apply obind_ret in H as [rb [Hq H]]. apply obind_ret in H as [rb' [Hq' H]]. injection H as <-.
        apply outcome_prep_false. eapply outcome_fmap; [|exact Hq'].
        destruct l.
        -- destruct Hf as (_ & _ & [Hf|(k3 & Hk3 & Hf)]); [specialize (P4 Hf); discriminate|].
           eapply (outcome_mono Soft Soft k3 k); [exact I|exact Hk3|left; auto|].
           eapply (IH _ g2 b); [apply Hw2|exact Hp|exact Hl|apply Hf| |exact Hq].
           eapply okb_le; [|exact Hb|lia|left; auto]; auto.
        -- eapply (outcome_mono Clean Firm k2 k); [exact I|lia|right; lia|].
           eapply (IH _ g2 b); [apply Hw2|exact Hp|exact Hl|apply Hf| |exact Hq].
           eapply okb_le; [|exact Hb|lia|right; lia]. right; discriminate.
        -- eapply (outcome_mono Firm Firm k2 k); [exact I|lia|right; lia|].
           eapply (IH _ g2 b); [apply Hw2|exact Hp|exact Hl|apply Hf| |exact Hq].
           eapply okb_le; [|exact Hb|lia|right; lia]. right; discriminate.
        -- destruct Hf as [_ [[Hf _]|Hf]]; [specialize (P4 Hf); discriminate|].
           eapply (outcome_mono Marked Marked k2 k); [exact I|lia|right; lia|].
           eapply (IH _ g2 b); [apply Hw2|exact Hp|exact Hl|apply Hf| |exact Hq].
           eapply okb_le; [|exact Hb|lia|right; lia]. right; discriminate.
    + injection H as <-. destruct HA; split; auto.
    + eapply (outcome_cont l k1 k2); [exact Hle|exact Hb|exact HA| |exact H].
      intros rep rb Hin P1 P2 HL K. eapply HQ; [|exact P2|exact HL|exact K].
      split; [exact P1|]. exact (proj2 (rec_pos_info _ _ _ _ _ _ _ _ _ Hw1 Hp Ha Hin)).
  - (* maybe *) destruct Hf as (k' & Hk & Hf). unfold maybe_full in H. apply obind_ret in H as [r0 [H0 H]].
    assert (HO : outcome Soft k' pos ins None r0).
    { eapply IH; [exact (proj2 Hw)|exact Hp|exact Hl|exact Hf| |exact H0]. destruct Hb as [Hb _]. split; [lia|discriminate]. }
    destruct r0 as [o|e|rc].
    + apply obind_ret in H as [o' [_ H]]. injection H as <-. exact I.
    + destruct HO as [C _]. cbn [res_con] in H. rewrite C in H. injection H as <-. exact I.
    + pose proof (full_none_rec_con E n _ g s pos c ins rc H0) as C. cbn [res_con] in H. rewrite C in H.
      eapply outcome_fmap; [|exact H]. eapply outcome_none; [exact C|exact Hk|exact HO].
  - (* many *) destruct Hf as (k' & Hk & Hf).
    pose proof (many_outcome n _ g b k k' ins IH (proj2 Hw) Hk (okb_none l k ins rem Soft Hb) Hf n false [] pos c r Hp Hl H) as HO.
    destruct r as [o|e|rc]; [exact I|contradiction|]. destruct HO as [C L]. destruct l; simpl; auto.
  - (* attempt *) unfold attempt_full in H. destruct rem as [m|].
    + eapply IH; eauto. apply Hw.
    + apply obind_ret in H as [r0 [_ H]]. destruct r0; injection H as <-; [exact I|split; auto].
  - unfold label_full in H. apply obind_ret in H as [r0 [H0 H]]. injection H as <-. apply outcome_exp.
    eapply IH; eauto. apply Hw.
  - (* recover *) unfold recover_full in H. apply obind_ret in H as [r0 [H0 H]].
    assert (HO : outcome (match l with Marked => Firm | _ => l end) k pos ins rem r0).
    { eapply IH; [exact (proj2 Hw)|exact Hp|exact Hl|exact Hf| |exact H0].
      eapply okb_le; [|exact Hb|apply Nat.le_refl|right; apply Nat.le_refl]. destruct l; auto; right; discriminate. }
    destruct r0 as [o|e|rc]; injection H as <-;
      [exact I|destruct l; destruct HO as [HO1 [HO2|HO2]]; split; auto; destruct HO2; discriminate|].
    assert (K : forall x, In x (rc_reps rc) ->
      exists y, In y (map rep_set_prio (rc_reps rc)) /\ keeps x y /\ r_prio y <> None).
    { intros x Hx. exists (rep_set_prio x). split; [apply in_map; auto|]. unfold keeps. simpl.
      destruct (r_prio x); repeat split; congruence. }
    destruct l; try (eapply outcome_keeps; [| |exact HO]; [|reflexivity];
      intros x Hx; destruct (K x Hx) as (y & ? & ? & _); eauto).
    simpl in HO |- *. destruct HO as [HO|HO].
    + destruct HO as (rep & R1 & R2 & R3). destruct (K rep R1) as (y & Y1 & (Y2 & Y3 & _) & Y4).
      destruct rem as [m|].
      * right. exists m, y. split; [reflexivity|]. split; [exact Y1|]. split; [lia|]. split; [|auto].
        rewrite Y3. unfold sat, lo_late, lo_early in *. lia.
      * left. split; [exact (full_none_rec_con E n _ g s pos c ins rc H0)|]. exists y. rewrite Y2, Y3. auto.
    + right. destruct HO as (m & rep & R0 & R1 & R2 & R3 & _). destruct (K rep R1) as (y & Y1 & (Y2 & Y3 & _) & Y4).
      exists m, y. rewrite Y2, Y3. auto 10.
  - destruct Hf as [(k' & Hk & Hf) Hn]. eapply with_outcome; eauto. apply Hw.
  - destruct Hf as [(k' & Hk & Hf) Hn]. eapply with_outcome; eauto. apply Hw.
  - unfold block_full in H. apply obind_ret in H as [r0 [H0 H]]. injection H as <-. apply outcome_ctx.
    eapply IH; eauto. apply Hw.
  - destruct Hf as [Hl' Hf]. unfold aligned_full in H. cbv zeta in H. destruct (Z.eqb _ _).
    + eapply IH; eauto. apply Hw.
    + injection H as <-. split; auto.
  - destruct Hf as [Hl' Hf]. unfold indented_full in H. cbv zeta in H. destruct (Z.eqb _ _).
    + apply obind_ret in H as [r0 [H0 H]]. injection H as <-. apply outcome_ctx. eapply IH; eauto. apply Hw.
    + injection H as <-. split; auto.
  - eapply (IH _ (E d) b); [apply HE|exact Hp|exact Hl|apply Hclaim; exact Hf|exact Hb|exact H].
  - discriminate.
Qed.

End Patch.
