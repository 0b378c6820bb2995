(** C33: termination.  C39: no exceptions. *)
From Verif Require Export Term LangInv Examples PropsBudget.

Section Guarded.
Context {T : Type} {V : nat -> Type}.
Variable E : env T V.
Notation gram := (gram T V).

Lemma occurs_trans B (q : gram B) C (r : gram C) : occurs E q C r ->
  forall A (g : gram A), occurs E r A g -> occurs E q A g.
Proof.
  intros Hq A g Hr. induction Hr; auto; econstructor; solve [eauto].
Qed.
Lemma lcall_occurs A (g : gram A) d : lcall E A g d -> occurs E (GDelay d) A g.
Proof.
  intros H. induction H; try (econstructor; eauto; fail).
Qed.
Lemma everywhere_sub Q B (q : gram B) A (g : gram A) :
  occurs E q A g -> everywhere E Q g -> everywhere E Q q.
Proof. intros Ho Hg C r Hr. apply Hg. eapply occurs_trans; eauto. Qed.
Lemma occurs_wf B (q : gram B) A (g : gram A) : wf_env E -> occurs E q A g -> wf g -> wf q.
Proof.
  intros HE Ho. induction Ho; intros Hg; auto; try (apply IHHo; apply Hg).
Qed.

Definition acc_node B (q : gram B) : Prop :=
  match q with GDelay d => Acc (fun d' d => lcall E (V d) (E d) d') d | _ => True end.
Lemma guarded_everywhere A (g : gram A) : guarded E g <-> everywhere E acc_node g.
Proof.
  split; intros H.
  - intros B q Hq. destruct q; simpl; auto.
  - intros d Hd. apply (H _ _ Hd).
Qed.

Lemma everywhere_delay Q d A (g : gram A) :
  everywhere E Q g -> occurs E (GDelay d) A g -> everywhere E Q (E d).
Proof.
  intros Hg Hd. eapply everywhere_sub; [|exact Hg]. eapply occurs_trans; [|exact Hd].
  apply oc_delay. apply oc_refl.
Qed.

Lemma guarded_ind (P Q : forall B, gram B -> Prop) :
  (forall B (q : gram B), Q B q -> acc_node B q) ->
  (forall B (q : gram B), everywhere E Q q -> heads E P q -> P B q) ->
  forall A (g : gram A), everywhere E Q g -> P A g.
Proof.
  intros HQ Hstep.
  assert (C1 : forall A (g : gram A), everywhere E Q g ->
    (forall d, lcall E A g d -> P _ (E d)) -> P A g).
  { intros A g Hg Hd. apply (heads_ind E P); auto. intros B q Hq Hh. apply Hstep; auto.
    eapply everywhere_sub; eauto. }
  assert (C2 : forall d, Acc (fun d' d => lcall E (V d) (E d) d') d -> everywhere E Q (E d) -> P _ (E d)).
  { intros d Ha. induction Ha as [d _ IH]. intros Hd. apply C1; auto.
    intros d' Hd'. apply IH; auto. eapply everywhere_delay; [exact Hd|]. apply lcall_occurs; auto. }
  intros A g Hg. apply C1; auto. intros d Hd. apply lcall_occurs in Hd. apply C2.
  - apply (HQ _ (GDelay d)). apply Hg. exact Hd.
  - eapply everywhere_delay; eauto.
Qed.

Lemma everywhere_refl Q A (g : gram A) : everywhere E Q g -> Q A g.
Proof. intros H. apply H. apply oc_refl. Qed.

Lemma everywhere_heads (P Q : forall B, gram B -> Prop) A (g : gram A) :
  (forall B (q : gram B), everywhere E Q q -> P B q) -> everywhere E Q g -> heads E P g.
Proof.
  intros H Hg. destruct g; simpl; auto; try (apply H; intros ? ? Hq; apply Hg; constructor; auto).
  - split; apply H; intros ? ? Hq; apply Hg; [apply oc_alt_l|apply oc_alt_r]; auto.
  - split; [|intros v _]; apply H; intros ? ? Hq; apply Hg; [apply oc_bind_l|eapply oc_bind_r; eauto]; auto.
  - split; [|intros v _]; apply H; intros ? ? Hq; apply Hg; [apply oc_seq_l|apply oc_seq_r]; auto.
Qed.

Section Run.
Hypothesis HE : wf_env E.
Variable s : list T.
Notation len := (List.length s).
Definition adm B (q : gram B) : Prop := wf q /\ halting_node E B q /\ acc_node B q.
Lemma adm_of A (g : gram A) : wf g -> everywhere E (halting_node E) g -> guarded E g -> everywhere E adm g.
Proof.
  intros H1 H2 H3 B q Hq. split; [eapply occurs_wf; eauto|]. split; [apply H2; auto|].
  apply guarded_everywhere in H3. apply H3; auto.
Qed.

Lemma fast_term : forall m pos, len - pos <= m -> pos <= len ->
  forall A (g : gram A), everywhere E adm g -> tfast E s pos A g.
Proof.
  induction m as [|m IH]; intros pos Hm Hp; apply guarded_ind; try (intros B q H; apply H).
  all: intros B q Hq Hh; pose proof (everywhere_refl _ _ _ Hq) as (W & H & _);
    apply fast_step; auto; intros pos' Hp'.
  { lia. }
  eapply (everywhere_children E _ adm); [|exact Hq]. intros C r Hr. apply IH; auto; lia.
Qed.

Section FullTerm.
Variable k : Z.
Hypothesis Hk : (0 <= k)%Z.
Definition okrem (rem : option Z) : Prop := forall z, rem = Some z -> (0 <= z)%Z.
Definition rank (rem : option Z) : nat := match rem with None => 0 | Some z => S (Z.to_nat z) end.
Definition below (pos' : nat) (rem' : option Z) (pos : nat) (rem : option Z) : Prop :=
  pos < pos' <= len \/ (pos' = pos /\ rank rem' < rank rem).

Lemma full_term : forall m pos, len - pos <= m -> pos <= len ->
  forall r rem, rank rem <= r -> okrem rem ->
  forall A (g : gram A), everywhere E adm g -> tfull E s k pos rem A g.
Proof.
  assert (Hb : forall A (g : gram A) pos c rem n rc rep, wf g -> pos <= len -> okrem rem ->
    full E n g s pos c k rem = Ret (RRec rc) -> In rep (rc_reps rc) ->
    okrem (Some (r_ins rep)) /\ below (r_pos rep) (Some (r_ins rep)) pos rem).
  { intros A g pos c rem n rc rep Hg Hp Hr H Hin.
    pose proof (full_info E s HE _ _ _ _ _ _ _ _ Hg Hp H) as Hi.
    destruct (Hi rep Hin) as (I1 & I2 & _ & I3). destruct (I3 Hk Hr) as [I4 I5]. split.
    - intros z Hz. injection Hz as <-. auto.
    - destruct (Nat.eq_dec (r_pos rep) pos) as [Heq|Hne]; [|left; lia].
      right. split; auto. destruct (I5 Heq) as (z & -> & Hz). simpl. lia. }
  induction m as [|m IHm]; intros pos Hm Hp; induction r as [|r IHr]; intros rem Hr Hrem;
    apply guarded_ind; try (intros B q H; apply H).
  all: intros B q Hq Hh; pose proof (everywhere_refl _ _ _ Hq) as (W & H & _).
  all: apply (full_step E s HE k okrem below); auto.
  all: try (intros z Hz; discriminate).
  all: try (intros z Hz; injection Hz as <-; assumption).
  all: try (intros; unfold below; simpl; lia).
  all: try (apply (everywhere_heads _ adm); [|exact Hq]; intros C q' Hq'; apply (fast_term len); auto; lia).
  all: intros pos' rem' Hp' Hr' Hb'; apply (everywhere_children E _ adm); [|exact Hq];
    intros C q' Hq'; destruct Hb' as [Hb'|[-> Hb']]; try lia.
  - apply IHr; auto; lia.
  - apply (IHm pos' ltac:(lia) ltac:(lia) (rank rem')); auto.
  - apply (IHm pos' ltac:(lia) ltac:(lia) (rank rem')); auto.
  - apply IHr; auto; lia.
Qed.
End FullTerm.

(** *** without Delays *)
Lemma children_mono (P Q : forall B, gram B -> Prop) A (g : gram A) :
  (forall B q, P B q -> Q B q) -> children P g -> children Q g.
Proof. intros H. destruct g; simpl; auto; intuition auto. Qed.
Lemma heads_mono (P Q : forall B, gram B -> Prop) A (g : gram A) :
  (forall B q, P B q -> Q B q) -> heads E P g -> heads E Q g.
Proof. intros H. destruct g; simpl; auto; try solve [intuition auto]; intros [H1 H2]; split; eauto. Qed.

Lemma plain_term k : forall A (g : gram A), no_delay g -> everywhere E adm g ->
  forall pos, pos <= len -> tfast E s pos A g /\ forall rem, tfull E s k pos rem A g.
Proof.
  set (P := fun B (q : gram B) => forall pos, pos <= len -> tfast E s pos B q /\ forall rem, tfull E s k pos rem B q).
  assert (G : forall A (g : gram A), everywhere E adm g -> children P g -> heads E P g -> P A g).
  { intros A g Hg Hc Hh pos Hp. pose proof (everywhere_refl _ _ _ Hg) as (W & H & _).
    assert (Hf : tfast E s pos A g).
    { apply fast_step; auto.
      - intros pos' Hp'. eapply children_mono; [|exact Hc]. intros B q Hq. apply Hq. lia.
      - eapply heads_mono; [|exact Hh]. intros B q Hq. apply Hq. auto. }
    split; auto. intros rem. apply (full_step E s HE k (fun _ => True) (fun _ _ _ _ => True)); auto.
    - intros pos' rem' Hp' _ _. eapply children_mono; [|exact Hc]. intros B q Hq. apply Hq. lia.
    - eapply heads_mono; [|exact Hh]. intros B q Hq. apply Hq. auto.
    - eapply heads_mono; [|exact Hh]. intros B q Hq. apply Hq. auto. }
  intros A g. change (no_delay g -> everywhere E adm g -> P A g).
  induction g; intros Hn Hg; (apply G; [exact Hg| |]); simpl; auto;
    try (apply IHg; [apply Hn|eapply everywhere_sub; [|exact Hg]; constructor; apply oc_refl]).
  all: try match goal with H : no_delay (GDelay _) |- _ => destruct H as [[] _] end.
  - split; [apply IHg1|apply IHg2]; try apply Hn; (eapply everywhere_sub; [|exact Hg]); [apply oc_alt_l|apply oc_alt_r]; apply oc_refl.
  - split; [apply IHg1|apply IHg2]; try apply Hn; (eapply everywhere_sub; [|exact Hg]); [apply oc_alt_l|apply oc_alt_r]; apply oc_refl.
  - split; [apply IHg|intros v; apply H]; try apply Hn; (eapply everywhere_sub; [|exact Hg]); [apply oc_bind_l|eapply oc_bind_r]; apply oc_refl.
  - split; [apply IHg|intros v _; apply H]; try apply Hn; (eapply everywhere_sub; [|exact Hg]); [apply oc_bind_l|eapply oc_bind_r]; apply oc_refl.
  - split; [apply IHg1|apply IHg2]; try apply Hn; (eapply everywhere_sub; [|exact Hg]); [apply oc_seq_l|apply oc_seq_r]; apply oc_refl.
  - split; [apply IHg1|intros v _; apply IHg2]; try apply Hn; (eapply everywhere_sub; [|exact Hg]); [apply oc_seq_l|apply oc_seq_r]; apply oc_refl.
Qed.
End Run.

Lemma no_delay_guarded A (g : gram A) : no_delay g -> guarded E g.
Proof.
  intros Hg. apply guarded_everywhere. intros B q Ho.
  assert (H : no_delay q).
  { induction Ho; auto; try (apply IHHo; apply Hg). destruct Hg as [[] _]. }
  destruct q; simpl; auto. destruct H as [[] _].
Qed.
End Guarded.

(** ** C33 *)
(** the run finishes with outcome [o] (a result or an exception), and giving
    it more fuel changes nothing *)
Definition finishes_with {A} (x : nat -> out A) (o : out A) : Prop :=
  o <> NoFuel /\ exists n, forall m, n <= m -> x m = o.

Lemma finishes_conv {A} (x : nat -> out A) : mono x -> conv x -> exists o, finishes_with x o.
Proof.
  intros Hm Hc. destruct (conv_lim x Hm Hc) as (r & Hr & [n H]). exists r. split; auto. exists n. auto.
Qed.
Lemma parse_conv {T V} (E : env T V) A (g : gram T V A) s (recover : bool) k get fmt :
  (if recover then conv (fun n => full E n g s 0 (init_ctx get) k (Some k))
   else conv (fun n => fast E n g s 0 (init_ctx get))) ->
  exists o, finishes_with (fun n => parse E n g s recover k get fmt) o.
Proof.
  intros H. apply finishes_conv; unfold parse; destruct recover.
  - apply mono_bind; [apply full_monotone|intros; apply mono_const].
  - apply mono_bind; [|intros; apply mono_const]. unfold omap.
    apply mono_bind; [apply fast_monotone|intros; apply mono_const].
  - apply (conv_bind _ (fun _ r => Ret (ResultWrapper r fmt))); auto.
    + apply full_monotone.
    + intros; apply conv_const; discriminate.
    + intros; apply mono_const.
  - apply (conv_bind _ (fun _ r => Ret (ResultWrapper r fmt))); auto.
    + unfold omap. apply mono_bind; [apply fast_monotone|intros; apply mono_const].
    + unfold omap. apply (conv_bind _ (fun _ r => Ret (sres_res r))); auto.
      * apply fast_monotone.
      * intros; apply conv_const; discriminate.
      * intros; apply mono_const.
    + intros; apply conv_const; discriminate.
    + intros; apply mono_const.
Qed.

Theorem C33_guarded_terminates :
  forall T V (E : env T V) A (g : gram T V A) s recover k get fmt,
  wf_env E -> wf g -> everywhere E (halting_node E) g -> guarded E g -> (0 <= k)%Z ->
  exists o, finishes_with (fun n => parse E n g s recover k get fmt) o.
Proof.
  intros T V E A g s recover k get fmt HE Hg Hh Hgd Hk. apply parse_conv.
  pose proof (adm_of E HE _ g Hg Hh Hgd) as Ha. destruct recover.
  - apply (full_term E HE s k Hk (List.length s) 0 ltac:(lia) ltac:(lia) (rank (Some k))); auto.
    intros z Hz. injection Hz as <-. auto.
  - apply (fast_term E HE s (List.length s)); auto; lia.
Qed.
Print Assumptions C33_guarded_terminates.

(** without Delays nothing else is needed, and any [max_insertions] will do *)
Theorem C33_no_delay_terminates :
  forall T V (E : env T V) A (g : gram T V A) s recover k get fmt,
  wf_env E -> wf g -> everywhere E (halting_node E) g -> no_delay g ->
  exists o, finishes_with (fun n => parse E n g s recover k get fmt) o.
Proof.
  intros T V E A g s recover k get fmt HE Hg Hh Hn. apply parse_conv.
  pose proof (adm_of E HE _ g Hg Hh (no_delay_guarded E _ g Hn)) as Ha.
  destruct (plain_term E HE s k _ g Hn Ha 0 ltac:(lia)) as [H1 H2].
  destruct recover; auto. apply H2.
Qed.
Print Assumptions C33_no_delay_terminates.

(** Left recursion does not terminate: [d = Delay(); d.define(d + x)]. *)
Definition left_E (x : ex_gram char) : env char ex_V := fun d => seql (GDelay d) x.
Theorem C33_left_recursion_diverges :
  forall x s recover k get fmt o,
  ~ finishes_with (fun n => parse (left_E x) n (GDelay 0) s recover k get fmt) o.
Proof.
  intros x s recover k get fmt o [Ho [n H]].
  assert (Hf : forall n c, fast (left_E x) n (GDelay 0) s 0 c = NoFuel /\
     fast (left_E x) (S n) (GDelay 0) s 0 c = NoFuel).
  { induction n0 as [|m IH]; intros c; [split; reflexivity|]. split; [apply IH|].
    cbn [fast left_E seql]. unfold seq_fast. destruct (IH c) as [K _]. rewrite K. reflexivity. }
  assert (HF : forall n c rem, full (left_E x) n (GDelay 0) s 0 c k rem = NoFuel /\
     full (left_E x) (S n) (GDelay 0) s 0 c k rem = NoFuel).
  { induction n0 as [|m IH]; intros c rem; [split; reflexivity|]. split; [apply IH|].
    cbn [full left_E seql]. unfold seq_full. destruct (IH c rem) as [K _]. rewrite K. reflexivity. }
  apply Ho. rewrite <- (H n (le_n n)). unfold parse. destruct recover.
  - destruct (HF n (init_ctx get) (Some k)) as [K _]. rewrite K. reflexivity.
  - destruct (Hf n (init_ctx get)) as [K _]. rewrite K. reflexivity.
Qed.
Print Assumptions C33_left_recursion_diverges.

(** With a negative [max_insertions] recovery may insert forever, although
    the grammar is guarded: [d.define(sym("a") >> d)] on the empty input. *)
Definition right_E : env char ex_V := fun d => seqr (ex_sym "a") (GDelay d).
Lemma right_guarded : guarded right_E (GDelay 0 : ex_gram Z).
Proof.
  intros d _. constructor. intros d' H. exfalso. apply lcall_inv in H.
  destruct H as [H|[[v H] _]]; [apply lcall_inv in H; exact H|apply lang_inv in H; destruct H; discriminate].
Qed.
Theorem C33_negative_diverges :
  wf_env right_E /\ guarded right_E (GDelay 0 : ex_gram Z) /\
  everywhere right_E (halting_node right_E) (GDelay 0 : ex_gram Z) /\
  forall k get fmt o, (k < 0)%Z ->
  ~ finishes_with (fun n => parse right_E n (GDelay 0 : ex_gram Z) [] true k get fmt) o.
Proof.
  split; [intros d; solve_gall|]. split; [apply right_guarded|].
  split; [apply everywhere_gall; [intros d|]; solve_gall|].
  intros k get fmt o Hk [Ho [n H]].
  assert (HF : forall n c m, (m < 0)%Z ->
     full right_E n (GDelay 0 : ex_gram Z) [] 0 c k (Some m) = NoFuel /\
     full right_E (S n) (GDelay 0 : ex_gram Z) [] 0 c k (Some m) = NoFuel).
  { induction n0 as [|n0 IH]; intros c m Hm; [split; reflexivity|]. split; [apply IH; auto|].
    destruct n0 as [|n0]; [reflexivity|].
    change (seq_full (full right_E (S n0) (ex_sym "a")) (full right_E (S n0) (GDelay 0 : ex_gram Z))
      (fun _ r => r) [] 0 c k (Some m) = NoFuel).
    assert (Hs : full right_E (S n0) (ex_sym "a") [] 0 c k (Some m) =
      Ret (RRec (Recd [make_insert m (ex_ch "a") 0 c (get_loc c [] 0) "'a'" ["'a'"%string]] None
        (get_loc c [] 0) ["'a'"%string] false))).
    { cbn [full ex_sym]. unfold sym_full. simpl. destruct (Z.eqb_spec m 0); [lia|]. reflexivity. }
    unfold seq_full. rewrite Hs. cbn [obind].
    unfold continue_parse. cbn [rc_reps flat_mapM]. unfold cont_one at 1.
    cbn [r_val r_pos r_ctx r_ins make_insert].
    destruct (IH c (m - 1)%Z ltac:(lia)) as [K _]. rewrite K. reflexivity. }
  apply Ho. rewrite <- (H n (le_n n)). unfold parse.
  destruct (HF n (init_ctx get) k Hk) as [K _]. rewrite K. reflexivity.
Qed.
Print Assumptions C33_negative_diverges.
