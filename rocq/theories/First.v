(** The first error of a recovering run is the error of the plain run. *)
From Verif Require Export FirstSpec PropsTerm.

Section First.
Context {T : Type} {V : nat -> Type}.
Notation gram := (gram T V).
Variable E : env T V.
Variable s : list T.
Notation len := (List.length s).
Variable get : loc -> list T -> nat -> loc.
Variable locof : nat -> loc.
Variable lay : Prop.
Let Cok := pos_Cok (T:=T) get locof.
Hypothesis CS : ctx_system s (pos_locrel locof) (pos_colrel locof) Cok lay.
Hypothesis HE : forall d, gok lay (E d).
Hypothesis HEw : wf_env E.

Definition fine B (q : gram B) : Prop :=
  gok lay q /\ ~ is_attempt B q /\ single_with E B q.

Lemma fine_children A (g : gram A) : everywhere E fine g -> children (fun B q => everywhere E fine q) g.
Proof. intros H. eapply everywhere_children; eauto. Qed.

(** ** an error without consumption is at the start position *)
Definition loc_here (pos : nat) {A} (r : sres T A) : Prop :=
  match r with SErr e => er_con e = false -> er_loc e = locof pos | _ => True end.

Lemma get_here pos c : Cok pos c -> pos <= len -> get_loc c s pos = locof pos.
Proof. intros. apply (cs_loc _ _ _ _ _ CS); auto. Qed.
Lemma sres_prepend_here pos {A} x b (r : sres T A) :
  (b = false -> loc_here pos r) -> loc_here pos (sres_prepend x b r).
Proof.
  destruct r as [o|e]; simpl; auto. unfold er_prepend. destruct (er_con e) eqn:He; simpl; intros H K.
  - congruence.
  - destruct b; [rewrite ?orb_true_r in K; congruence|auto].
Qed.

Lemma fast_here n : forall A (g : gram A) pos c r, everywhere E fine g -> pos <= len -> Cok pos c ->
  fast E n g s pos c = Ret r -> loc_here pos r.
Proof.
  induction n as [|n IH]; intros A g pos c r Hg Hp Hc H; [discriminate|].
  pose proof (everywhere_refl E _ _ _ Hg) as (Hok & Hatt & _).
  pose proof (fine_children _ _ Hg) as Hk.
  pose proof (get_here _ _ Hc Hp) as Hh.
  assert (Hgood : forall B (q : gram B) o, everywhere E fine q -> fast E n q s pos c = Ret (SOk o) ->
    pos <= ok_pos o <= len /\ Cok (ok_pos o) (ok_ctx o) /\ (ok_con o = false -> ok_pos o = pos)).
  { intros B q o Hq H'. pose proof (everywhere_refl E _ _ _ Hq) as (Hok' & _).
    eapply fast_good in H'; eauto. destruct H' as (_ & H2 & H3 & H4 & _). split; [lia|]. split; [auto|].
    intros Hcn. rewrite Hcn in H3. symmetry in H3. apply Nat.ltb_ge in H3. lia. }
  assert (Hupd : Cok pos (update_loc c s pos)) by (eapply (cs_upd _ _ _ _ _ CS); eauto; lia).
  destruct g; simpl in H, Hk.
  - injection H as <-. exact I.
  - unfold purefn_fast in H. apply obind_ret in H as [v [_ H]]. injection H as <-. exact I.
  - injection H as <-. simpl. auto.
  - unfold eof_fast in H. destruct (Nat.eqb _ _); injection H as <-; simpl; auto.
  - unfold satisfy_fast in H. apply obind_ret in H as [v [_ H]]. destruct v; injection H as <-; simpl; auto.
  - unfold sym_fast in H. apply obind_ret in H as [v [_ H]]. destruct v; injection H as <-; simpl; auto.
  - unfold literal_fast in H. destruct (starts_with _ _ _ _); injection H as <-; simpl; auto.
  - unfold regexp_fast in H. destruct (probe_re _ _ _) as [[]|]; injection H as <-; simpl; auto.
  - unfold fmap_fast in H. apply obind_ret in H as [r0 [H0 H]]. apply IH in H0; auto.
    destruct r0; simpl in H; [apply obind_ret in H as [? [_ H]]|]; injection H as <-; simpl; auto.
  - destruct Hk as [K1 K2]. unfold alt_fast in H. apply obind_ret in H as [ra [Ha H]].
    pose proof (IH _ _ _ _ _ K1 Hp Hc Ha) as Qa.
    destruct ra as [o|ea]; [injection H as <-; exact I|].
    destruct (er_con ea) eqn:He; [injection H as <-; simpl; congruence|].
    apply obind_ret in H as [rb [Hb H]]. pose proof (IH _ _ _ _ _ K2 Hp Hc Hb) as Qb.
    destruct (sres_con rb) eqn:Hcb; [injection H as <-; exact Qb|].
    destruct rb as [ob|eb]; injection H as <-; simpl; auto.
  - destruct Hk as [K1 K2]. unfold bind_fast in H. apply obind_ret in H as [ra [Ha H]].
    pose proof (IH _ _ _ _ _ K1 Hp Hc Ha) as Qa.
    destruct ra as [o|ea]; [|injection H as <-; exact Qa].
    destruct (Hgood _ _ _ K1 Ha) as (G1 & G2 & G3).
    apply obind_ret in H as [rb [Hb H]]. injection H as <-.
    apply sres_prepend_here. intros Hcn. rewrite <- (G3 Hcn). apply (IH _ _ _ _ _ (K2 _) (proj2 G1) G2 Hb).
  - destruct Hk as [K1 K2]. unfold seq_fast in H. apply obind_ret in H as [ra [Ha H]].
    pose proof (IH _ _ _ _ _ K1 Hp Hc Ha) as Qa.
    destruct ra as [o|ea]; [|injection H as <-; exact Qa].
    destruct (Hgood _ _ _ K1 Ha) as (G1 & G2 & G3). cbv zeta in H.
    apply obind_ret in H as [rb [Hb H]]. apply obind_ret in H as [rc [Hr H]]. injection H as <-.
    apply sres_prepend_here. intros Hcn. rewrite <- (G3 Hcn).
    apply (IH _ _ _ _ _ K2 (proj2 G1) G2) in Hb.
    destruct rb; simpl in Hr; injection Hr as <-; simpl; auto.
  - unfold maybe_fast in H. apply obind_ret in H as [r0 [H0 H]]. apply IH in H0; auto.
    destruct r0 as [o|e]; [apply obind_ret in H as [? [_ H]]; injection H as <-; exact I|].
    destruct (er_con e) eqn:He; injection H as <-; simpl; auto; congruence.
  - enough (G : forall k con v pos c, many_fast (fast E n g) k con v s pos c = Ret r ->
      match r with SErr e => er_con e = true | _ => True end).
    { apply G in H. destruct r as [o|e]; simpl; auto; congruence. }
    clear. induction k as [|k IHk]; intros con v pos c H; [discriminate|]. simpl in H.
    apply obind_ret in H as [r0 [H0 H]]. destruct r0 as [o|e].
    + destruct (ok_con o); [eapply IHk; eauto|discriminate].
    + destruct (er_con e) eqn:He; injection H as <-; auto.
  - destruct Hatt. exact I.
  - unfold label_fast in H. apply obind_ret in H as [r0 [H0 H]]. injection H as <-. apply IH in H0; auto.
    destruct r0 as [o|e]; simpl in *; auto. unfold er_set_exp. destruct (er_con e) eqn:He; simpl; auto; congruence.
  - exact (IH _ _ _ _ _ Hk Hp Hc H).
  - exact (IH _ _ _ _ _ Hk Hp Hc H).
  - exact (IH _ _ _ _ _ Hk Hp Hc H).
  - unfold block_fast in H. apply obind_ret in H as [r0 [H0 H]]. injection H as <-.
    apply (IH _ _ _ _ _ Hk Hp (cs_mark _ _ _ _ _ CS _ _ _ Hupd)) in H0. destruct r0; simpl; auto.
  - unfold aligned_fast in H. cbv zeta in H. destruct (Z.eqb _ _); [exact (IH _ _ _ _ _ Hk Hp Hupd H)|].
    injection H as <-. simpl. intros _.
    apply (cs_col _ _ _ _ _ CS); auto. pose proof (gall_node _ _ _ Hok) as [_ L]. apply L. exact I.
  - unfold indented_fast in H. cbv zeta in H. destruct (Z.eqb _ _).
    + apply obind_ret in H as [r0 [H0 H]]. injection H as <-.
      apply (IH _ _ _ _ _ Hk Hp (cs_mark _ _ _ _ _ CS _ _ _ Hupd)) in H0. destruct r0; simpl; auto.
    + injection H as <-. simpl. intros _.
      apply (cs_col _ _ _ _ _ CS); auto. pose proof (gall_node _ _ _ Hok) as [_ L]. apply L. exact I.
  - eapply IH; [|exact Hp|exact Hc|exact H]. eapply everywhere_delay; [exact Hg|apply oc_refl].
  - discriminate.
Qed.

(** ** agreement *)
Definition has_with A (g : gram A) : Prop := exists B (q : gram B), occurs E q A g /\ is_with B q.
Definition head_ok (e : errr) {A} (rep : repair T A) : Prop :=
  exists o tl, r_ops rep = o :: tl /\ op_loc o = er_loc e /\ op_exp o = er_exp e /\ op_con o = er_con e.
Definition agrees {A} (W B : Prop) (e : errr) (r : res T A) : Prop :=
  match r with
  | ROk _ => False
  | RErr e' => e' = e
  | RRec rc => rc_loc rc = er_loc e /\ rc_con rc = er_con e /\
      (rc_exp rc = er_exp e \/ (W /\ (er_con e = false -> B))) /\
      forall rep, In rep (rc_reps rc) -> head_ok e rep
  end.

Lemma agrees_weaken {A} (W W' B B' : Prop) e (r : res T A) :
  (W -> W') -> (er_con e = false -> B -> B') -> agrees W B e r -> agrees W' B' e r.
Proof. intros H1 H2. destruct r; simpl; auto. intuition. Qed.

Lemma agrees_fmap {A C} (f : A -> out C) W B e (r : res T A) r' :
  agrees W B e r -> res_fmap f r = Ret r' -> agrees W B e r'.
Proof.
  destruct r as [o|e'|rc]; simpl; intros H Hf; [destruct H|injection Hf as <-; exact H|].
  apply obind_ret in Hf as [rc' [Hr Hf]]. injection Hf as <-. unfold rec_fmap in Hr.
  apply obind_ret in Hr as [reps [Hm Hr]]. injection Hr as <-. simpl.
  destruct H as (H1 & H2 & H3 & H4). repeat split; auto.
  intros rep Hin. destruct (mapM_in _ _ _ _ Hm Hin) as (x & Hx & Hfx).
  unfold rep_fmap in Hfx. apply obind_ret in Hfx as [v [_ Hfx]]. injection Hfx as <-. exact (H4 x Hx).
Qed.
Lemma agrees_ctx {A} x W B e (r : res T A) : agrees W B e r -> agrees W B e (res_set_ctx x r).
Proof.
  destruct r as [o|e'|rc]; simpl; auto. intros (H1 & H2 & H3 & H4). repeat split; auto.
  intros rep Hin. apply in_map_iff in Hin as (r0 & <- & Hin). exact (H4 r0 Hin).
Qed.
Lemma agrees_prepend {A} x b W B e (r : res T A) :
  agrees W B e r -> agrees W B (er_prepend x b e) (res_prepend x b r).
Proof.
  destruct r as [o|e'|rc]; simpl; auto; [intros ->; reflexivity|]. intros (H1 & H2 & H3 & H4).
  unfold er_prepend. rewrite H2. destruct (er_con e) eqn:He; simpl.
  - rewrite He. split; [auto|]. split; [simpl; auto|]. split.
    + destruct H3 as [H3|[H3 _]]; [auto|right; split; auto; discriminate].
    + intros rep Hin. apply in_map_iff in Hin as (r0 & <- & Hin).
      destruct (H4 r0 Hin) as (o & tl & K1 & K2 & K3 & K4). exists o.
      eexists. unfold rep_prepend. cbn [r_ops]. rewrite K1. simpl.
      rewrite K4, He. auto.
  - split; [auto|]. split; [simpl; auto|]. split.
    + destruct H3 as [-> |[H3 H3']]; [auto|right; split; auto].
    + intros rep Hin. apply in_map_iff in Hin as (r0 & <- & Hin).
      destruct (H4 r0 Hin) as (o & tl & K1 & K2 & K3 & K4). unfold rep_prepend, head_ok. cbn [r_ops]. rewrite K1. simpl.
      rewrite K4, He. do 2 eexists. split; [reflexivity|]. simpl. rewrite K3. auto.
Qed.
Lemma agrees_set_exp {A} x W B B' e (r : res T A) :
  agrees W B e r -> agrees W B' (er_set_exp x e) (res_set_exp x r).
Proof.
  destruct r as [o|e'|rc]; simpl; auto; [intros ->; reflexivity|]. intros (H1 & H2 & H3 & H4).
  unfold er_set_exp. rewrite H2. destruct (er_con e) eqn:He; simpl.
  - rewrite He. split; [auto|]. split; [simpl; auto|]. split.
    + destruct H3 as [H3|[H3 _]]; [auto|right; split; auto; discriminate].
    + intros rep Hin. apply in_map_iff in Hin as (r0 & <- & Hin).
      destruct (H4 r0 Hin) as (o & tl & K1 & K2 & K3 & K4). unfold rep_set_exp, head_ok. cbn [r_ops]. rewrite K1. simpl.
      rewrite K4, He. do 2 eexists. split; [reflexivity|]. rewrite K4, He. auto.
  - repeat split; auto.
    intros rep Hin. apply in_map_iff in Hin as (r0 & <- & Hin).
    destruct (H4 r0 Hin) as (o & tl & K1 & K2 & K3 & K4). unfold rep_set_exp, head_ok. cbn [r_ops]. rewrite K1. simpl.
    rewrite K4, He. do 2 eexists. split; [reflexivity|]. simpl. auto.
Qed.
Lemma agrees_continue {A B C} W L e (rc : recr T A) ins
    (f : A -> nat -> ctx T -> Z -> out (res T B)) (merge : A -> B -> C) r :
  agrees W L e (RRec rc) -> continue_parse rc ins f merge = Ret r -> agrees W L e r.
Proof.
  intros (H1 & H2 & H3 & H4) H. apply continue_ret in H as (reps & Hm & ->). simpl.
  repeat split; auto. intros rep Hin.
  destruct (flat_mapM_in _ _ _ _ Hm Hin) as (x & ys & Hx & Hf & Hy).
  destruct (H4 x Hx) as (o & tl & K1 & K2 & K3 & K4).
  unfold cont_one in Hf. apply obind_ret in Hf as [rb [_ Hf]]. destruct rb as [ob|eb|rb]; injection Hf as <-.
  - destruct Hy as [<-|[]]. exists o, tl. auto.
  - destruct Hy.
  - apply in_map_iff in Hy as (rr & <- & _). unfold head_ok, cont_rec, join_ops. cbn [r_ops].
    rewrite K1. simpl. do 2 eexists. split; [reflexivity|]. auto.
Qed.

Lemma has_sub B (q : gram B) A (g : gram A) :
  (forall C (r : gram C), occurs E r B q -> occurs E r A g) -> has_with B q -> has_with A g.
Proof. intros H (C & r & H1 & H2). exists C, r. auto. Qed.
Hint Resolve oc_fmap oc_alt_l oc_alt_r oc_bind_l oc_bind_r oc_seq_l oc_seq_r oc_maybe oc_many
  oc_label oc_recover oc_with oc_withfn oc_block oc_aligned oc_indented oc_delay : first.
Hint Constructors bare_with : first.

Lemma many_first A (p : gram A) n ins (W : Prop) :
  (forall pos c e r, pos <= len -> Cok pos c -> fast E n p s pos c = Ret (SErr e) ->
     full E n p s pos c ins None = Ret r -> agrees (has_with A p) (bare_with E A p) e r) ->
  (forall pos c o, pos <= len -> Cok pos c -> fast E n p s pos c = Ret (SOk o) ->
     ok_pos o <= len /\ Cok (ok_pos o) (ok_ctx o)) ->
  (has_with A p -> W) ->
  forall k con v pos c e r, pos <= len -> Cok pos c ->
  many_fast (fast E n p) k con v s pos c = Ret (SErr e) ->
  many_full (full E n p) k con v s pos c ins = Ret r -> agrees W False e r.
Proof.
  intros Hp Ho HW. induction k as [|k IHk]; intros con v pos c e r Hpos Hc Hf HF; [discriminate|].
  simpl in Hf, HF. apply obind_ret in Hf as [rf [Hrf Hf]]. apply obind_ret in HF as [rF [HrF HF]].
  pose proof (sim_fast_full E n _ p s pos c ins None) as Hs. rewrite Hrf in Hs.
  destruct rf as [o|e0].
  - simpl in Hs. rewrite Hs in HrF. injection HrF as <-.
    destruct (ok_con o); [|discriminate]. destruct (Ho _ _ _ Hpos Hc Hrf). eapply IHk; eauto.
  - destruct (er_con e0) eqn:He0; [|discriminate]. injection Hf as <-.
    pose proof (Hp _ _ _ _ Hpos Hc Hrf HrF) as Ha.
    assert (Ha' : agrees W False e0 rF).
    { eapply agrees_weaken; [exact HW| |exact Ha]. rewrite He0. discriminate. }
    destruct rF as [o|e'|rc]; [destruct Ha| |].
    + simpl in Ha. subst e'. rewrite He0 in HF. injection HF as <-. reflexivity.
    + eapply agrees_continue; eauto.
Qed.

Lemma full_first n : forall A (g : gram A) pos c ins rem e r,
  everywhere E fine g -> pos <= len -> Cok pos c ->
  fast E n g s pos c = Ret (SErr e) -> full E n g s pos c ins rem = Ret r ->
  agrees (has_with A g) (bare_with E A g) e r.
Proof.
  induction n as [|n IH]; intros A g pos c ins rem e r Hg Hp Hc Hf HF; [discriminate|].
  pose proof (everywhere_refl E _ _ _ Hg) as (Hok & Hatt & Hsw).
  pose proof (fine_children _ _ Hg) as Hk.
  pose proof (get_here _ _ Hc Hp) as Hh.
  pose proof (fast_here (S n) _ _ _ _ _ Hg Hp Hc Hf) as Hhere.
  assert (Hgood : forall B (q : gram B) o, everywhere E fine q -> fast E n q s pos c = Ret (SOk o) ->
    pos <= ok_pos o <= len /\ Cok (ok_pos o) (ok_ctx o) /\
    (ok_con o = false -> lang E B q [] (ok_val o))).
  { intros B q o Hq H'. pose proof (everywhere_refl E _ _ _ Hq) as (Hok' & _).
    eapply fast_good in H'; eauto. destruct H' as (H1 & H2 & H3 & H4 & _). split; [lia|]. split; [auto|].
    intros Hcn. rewrite Hcn in H3. symmetry in H3. apply Nat.ltb_ge in H3.
    replace (ok_pos o) with pos in H1 by lia.
    eapply ederiv_sentence in H1; eauto.
    - rewrite slice_nil in H1. exact H1.
    - eapply gall_mono; [|exact Hok']. simpl. tauto. }
  assert (Hupd : Cok pos (update_loc c s pos)) by (eapply (cs_upd _ _ _ _ _ CS); eauto; lia).
  assert (Hsim : forall B (q : gram B) rem f F, fast E n q s pos c = Ret f -> full E n q s pos c ins rem = Ret F ->
    match f with SOk o => F = ROk o | SErr _ => not_ok F end).
  { intros B q rem' f F H1 H2. pose proof (sim_fast_full E n _ q s pos c ins rem') as Hs. rewrite H1, H2 in Hs.
    destruct f as [o|e']; [simpl in Hs; congruence|]. eapply sim_err_not_ok; [exact Hs|reflexivity]. }
  assert (Hw : forall B (p : gram B) mk lab, everywhere E fine p -> ~ bare_with E B p ->
    fast E n p s pos c = Ret (SErr e) -> (er_con e = false -> er_loc e = locof pos) ->
    forall W : Prop, (has_with B p -> W) -> W -> forall F,
    recover_with_full (full E n p) mk lab s pos c ins rem = Ret F -> agrees W True e F).
  { clear - IH Hp Hc Hh. intros B p mk lab Hk Hsw Hf Hhere W HW HW' F H.
    unfold recover_with_full in H. destruct rem as [m|].
    2:{ eapply agrees_weaken; [exact HW| |eapply IH; eauto]. auto. }
    apply obind_ret in H as [r0 [H0 H]].
    pose proof (IH _ _ _ _ _ _ _ _ Hk Hp Hc Hf H0) as Ha.
    assert (Ha' : agrees W True e r0) by (eapply agrees_weaken; [exact HW| |exact Ha]; auto).
    destruct r0 as [o|e'|rc]; [destruct Ha| |].
    - simpl in Ha. subst e'. simpl in H. destruct (er_con e) eqn:He; [injection H as <-; reflexivity|].
      destruct (Z.eqb m 0); [injection H as <-; reflexivity|].
      apply obind_ret in H as [x [_ H]]. injection H as <-. simpl. rewrite Hh, (Hhere eq_refl).
      repeat split; auto. intros rep [<-|[]]. unfold head_ok, make_user_insert. cbn [r_ops].
      do 2 eexists. split; [reflexivity|]. cbn [op_loc op_exp op_con]. rewrite (Hhere eq_refl), He. auto.
    - cbn [res_con] in H. pose proof Ha as (H1 & H2 & H3 & H4). rewrite H2 in H.
      destruct (er_con e) eqn:He; [injection H as <-; exact Ha'|].
      destruct (Z.eqb m 0); [injection H as <-; exact Ha'|].
      apply obind_ret in H as [x [_ H]]. injection H as <-. simpl. rewrite Hh, (Hhere eq_refl).
      destruct H3 as [H3|[_ H3]]; [|destruct (Hsw (H3 eq_refl))].
      repeat split; auto. intros rep [<-|Hin]; [|auto]. unfold head_ok, make_user_insert. cbn [r_ops].
      do 2 eexists. split; [reflexivity|]. cbn [op_loc op_exp op_con res_exp]. rewrite (Hhere eq_refl), He, H3. auto. }
  destruct g; simpl in Hf, HF, Hk, Hsw.
  - discriminate.
  - unfold purefn_fast in Hf. apply obind_ret in Hf as [v [_ Hf]]. discriminate.
  - injection Hf as <-. injection HF as <-. reflexivity.
  - unfold eof_fast in Hf. unfold eof_full in HF. destruct (Nat.eqb _ _); [discriminate|]. injection Hf as <-.
    destruct rem; injection HF as <-; simpl; auto. repeat split; auto.
    intros rep [<-|[]]. do 2 eexists. split; [reflexivity|]. auto.
  - unfold satisfy_fast in Hf. unfold satisfy_full in HF. apply obind_ret in Hf as [v [Hv Hf]].
    rewrite Hv in HF. cbn [obind] in HF. destruct v; [discriminate|]. injection Hf as <-.
    destruct rem; [|injection HF as <-; reflexivity]. apply obind_ret in HF as [f [_ HF]].
    destruct f as [[cur t]|]; injection HF as <-; simpl; auto. repeat split; auto.
    intros rep [<-|[]]. do 2 eexists. split; [reflexivity|]. auto.
  - unfold sym_fast in Hf. unfold sym_full in HF. apply obind_ret in Hf as [v [Hv Hf]].
    rewrite Hv in HF. cbn [obind] in HF. destruct v; [discriminate|]. injection Hf as <-.
    destruct rem; [|injection HF as <-; reflexivity]. apply obind_ret in HF as [f [_ HF]].
    destruct f as [[cur t]|]; injection HF as <-; simpl; repeat split; auto;
      intros rep Hin; repeat (first [apply in_app_or in Hin as [Hin|Hin] | destruct (Z.eqb _ _)]);
      simpl in Hin; try tauto; destruct Hin as [<-|[]];
      do 2 eexists; (split; [reflexivity|]); auto.
  - unfold literal_fast in Hf. unfold literal_full in HF. destruct (starts_with _ _ _ _); [discriminate|].
    injection Hf as <-.
    destruct rem; [|injection HF as <-; reflexivity]. apply obind_ret in HF as [f [_ HF]].
    destruct f as [[cur t]|]; injection HF as <-; simpl; repeat split; auto;
      intros rep Hin; repeat (first [apply in_app_or in Hin as [Hin|Hin] | destruct (Z.eqb _ _)]);
      simpl in Hin; try tauto; destruct Hin as [<-|[]];
      do 2 eexists; (split; [reflexivity|]); auto.
  - unfold regexp_fast in Hf. unfold regexp_full in HF. destruct (probe_re _ _ _) as [[]|]; [discriminate|].
    injection Hf as <-.
    destruct rem; [|injection HF as <-; reflexivity]. apply obind_ret in HF as [f [_ HF]].
    destruct f as [[cur [t w]]|]; injection HF as <-; simpl; auto. repeat split; auto.
    intros rep [<-|[]]. do 2 eexists. split; [reflexivity|]. auto.
  - unfold fmap_fast in Hf. unfold fmap_full in HF. apply obind_ret in Hf as [f0 [Hf0 Hf]].
    apply obind_ret in HF as [r0 [Hr0 HF]].
    destruct f0 as [o|e0]; [simpl in Hf; apply obind_ret in Hf as [? [_ Hf]]; discriminate|].
    simpl in Hf. injection Hf as <-. eapply agrees_fmap; [|exact HF].
    eapply agrees_weaken; [| |exact (IH _ _ _ _ _ _ _ _ Hk Hp Hc Hf0 Hr0)]; [apply has_sub; auto with first|auto with first].
  - destruct Hk as [K1 K2]. unfold alt_fast in Hf. unfold alt_full in HF.
    apply obind_ret in Hf as [ra [Ha Hf]]. apply obind_ret in HF as [rA [HA HF]].
    pose proof (sim_fast_full E n _ g1 s pos c ins None) as Hs. rewrite Ha in Hs.
    destruct ra as [o|ea]; [discriminate|].
    pose proof (fast_here n _ _ _ _ _ K1 Hp Hc Ha) as Ka.
    pose proof (IH _ _ _ _ _ _ _ _ K1 Hp Hc Ha HA) as Qa.
    destruct (er_con ea) eqn:Hea.
    { injection Hf as <-.
      assert (Hr : r = rA).
      { destruct rA as [o|[la xa ca]|[reps mn la xa ca]]; [destruct Qa| |]; simpl in Qa.
        - subst ea. simpl in Hea. subst ca. congruence.
        - destruct Qa as (_ & Q & _). rewrite Hea in Q. rewrite Q in HF. congruence. }
      subst r. eapply agrees_weaken; [| |exact Qa]; [apply has_sub; auto with first|congruence]. }
    simpl in Hs. rewrite Hea in Hs. rewrite Hs in HA. injection HA as <-.
    destruct ea as [la xa ca]. simpl in Hea. subst ca. cbn [er_exp er_loc er_con] in *.
    apply obind_ret in Hf as [rb [Hb Hf]]. apply obind_ret in HF as [rB [HB HF]].
    pose proof (sim_fast_full E n _ g2 s pos c ins None) as Hs2. rewrite Hb in Hs2.
    pose proof (fast_here n _ _ _ _ _ K2 Hp Hc Hb) as Kb.
    destruct rb as [ob|eb].
    { simpl in Hf. destruct (ok_con ob); discriminate. }
    pose proof (IH _ _ _ _ _ _ _ _ K2 Hp Hc Hb HB) as Qb. simpl in Hf.
    destruct (er_con eb) eqn:Heb.
    { injection Hf as <-.
      assert (Hr : r = rB).
      { assert (Hcb : res_con rB = true).
        { destruct rB as [o|eb'|rc]; [destruct Qb| |]; simpl in Qb |- *; [congruence|].
          destruct Qb as (_ & Q & _). congruence. }
        rewrite Hcb in HF. congruence. }
      subst r. eapply agrees_weaken; [| |exact Qb]; [apply has_sub; auto with first|congruence]. }
    simpl in Hs2. rewrite Heb in Hs2. rewrite Hs2 in HB. injection HB as <-.
    simpl in HF. rewrite Heb in HF. injection Hf as <-.
    specialize (Ka eq_refl). specialize (Kb Heb). simpl in Ka.
    unfold alt_recover in HF. destruct rem as [m|]; [|injection HF as <-; reflexivity].
    apply obind_ret in HF as [rra [Hra HF]]. apply obind_ret in HF as [rrb [Hrb HF]].
    pose proof (IH _ _ _ _ _ _ _ _ K1 Hp Hc Ha Hra) as Ra.
    pose proof (IH _ _ _ _ _ _ _ _ K2 Hp Hc Hb Hrb) as Rb.
    assert (SE : forall (rc : recr T A) x, rc_con rc = false -> rc_loc rc = la ->
      (forall rep, In rep (rc_reps rc) -> exists o tl, r_ops rep = o :: tl /\ op_loc o = la /\ op_con o = false) ->
      agrees (has_with A (GAlt g1 g2)) (bare_with E A (GAlt g1 g2)) (Err la x false) (RRec (rec_set_exp x rc))).
    { intros rc x H1 H2 H3. simpl. rewrite H1. repeat split; auto.
      intros rep Hin. apply in_map_iff in Hin as (r0 & <- & Hin).
      destruct (H3 r0 Hin) as (o & tl & L1 & L2 & L3). unfold head_ok, rep_set_exp. cbn [r_ops]. rewrite L1. simpl.
      rewrite L3. do 2 eexists. split; [reflexivity|]. simpl. auto. }
    assert (Sa : forall a, rra = RRec a -> rc_con a = false /\ rc_loc a = la /\
      forall rep, In rep (rc_reps a) -> exists o tl, r_ops rep = o :: tl /\ op_loc o = la /\ op_con o = false).
    { intros a ->. destruct Ra as (R1 & R2 & _ & R4). repeat split; auto. intros rep Hin.
      destruct (R4 rep Hin) as (o & tl & L1 & L2 & _ & L4). exists o, tl. auto. }
    assert (Sb : forall b, rrb = RRec b -> rc_con b = false /\ rc_loc b = la /\
      forall rep, In rep (rc_reps b) -> exists o tl, r_ops rep = o :: tl /\ op_loc o = la /\ op_con o = false).
    { intros b ->. destruct Rb as (R1 & R2 & _ & R4). rewrite Kb, <- Ka in R1. repeat split; auto; [congruence|].
      intros rep Hin. destruct (R4 rep Hin) as (o & tl & L1 & L2 & _ & L4). exists o, tl.
      rewrite Kb, <- Ka in L2. rewrite Heb in L4. auto. }
    destruct rra as [?|ea'|a]; [destruct Ra| |]; (destruct rrb as [?|eb'|b]; [destruct Rb| |]); injection HF as <-.
    + reflexivity.
    + destruct (Sb b eq_refl) as (? & ? & ?). apply SE; auto.
    + destruct (Sa a eq_refl) as (? & ? & ?). apply SE; auto.
    + destruct (Sa a eq_refl) as (A1 & A2 & A3). destruct (Sb b eq_refl) as (B1 & B2 & B3).
      apply SE; unfold join_repairs; destruct (rc_min a); rewrite A1, B1; auto.
      all: cbn [rc_reps]; intros rep Hin; apply in_app_or in Hin as [Hin|Hin]; auto;
        apply filter_In in Hin as [Hin _]; auto.
  - destruct Hk as [K1 K2]. unfold bind_fast in Hf. unfold bind_full in HF.
    apply obind_ret in Hf as [ra [Ha Hf]]. apply obind_ret in HF as [rA [HA HF]].
    destruct ra as [o|ea].
    + pose proof (Hsim _ _ _ _ _ Ha HA) as ->.
      apply obind_ret in Hf as [rb [Hb Hf]]. destruct rb as [ob|eb]; [discriminate|].
      assert (He' : e = er_prepend (ok_exp o) (ok_con o) eb) by (simpl in Hf; congruence).
      clear Hf. subst e.
      destruct (Hgood _ _ _ K1 Ha) as (G1 & G2 & G3).
      assert (HB : exists rem' rB, full E n (f (ok_val o)) s (ok_pos o) (ok_ctx o) ins rem' = Ret rB /\
         r = res_prepend (ok_exp o) (ok_con o) rB).
      { destruct (ok_con o); apply obind_ret in HF as [rB [HB HF]]; injection HF as <-; eauto. }
      destruct HB as (rem' & rB & HB & ->). 
      pose proof (IH _ _ _ _ _ _ _ _ (K2 _) (proj2 G1) G2 Hb HB) as Q.
      destruct (ok_con o) eqn:Hco.
      * apply (agrees_weaken (has_with B (f (ok_val o))) _ False).
        -- apply has_sub; eauto with first.
        -- tauto.
        -- assert (Q' : agrees (has_with B (f (ok_val o))) (bare_with E B (f (ok_val o)))
             (er_prepend (ok_exp o) true eb) (res_prepend (ok_exp o) true rB)) by (apply agrees_prepend; exact Q).
           eapply agrees_weaken; [exact (fun K => K)| |exact Q']. unfold er_prepend.
           destruct (er_con eb) eqn:Hx; simpl; rewrite ?Hx, ?orb_true_r; congruence.
      * apply agrees_prepend. eapply agrees_weaken; [| |exact Q]; [apply has_sub; eauto with first|].
        intros _ Hbw. eapply bw_bind_r; eauto.
    + pose proof (IH _ _ _ _ _ _ _ _ K1 Hp Hc Ha HA) as Q. injection Hf as <-.
      assert (Q' : agrees (has_with B (GBind g f)) (bare_with E B (GBind g f)) ea rA).
      { eapply agrees_weaken; [| |exact Q]; [apply has_sub; auto with first|auto with first]. }
      destruct rA as [o|e'|rc]; [destruct Q| |].
      * injection HF as <-. exact Q'.
      * eapply agrees_continue; eauto.
  - destruct Hk as [K1 K2]. unfold seq_fast in Hf. unfold seq_full in HF.
    apply obind_ret in Hf as [ra [Ha Hf]]. apply obind_ret in HF as [rA [HA HF]].
    destruct ra as [o|ea].
    + pose proof (Hsim _ _ _ _ _ Ha HA) as ->. cbv zeta in Hf, HF.
      apply obind_ret in Hf as [rb [Hb Hf]]. destruct rb as [ob|eb]; [discriminate|].
      assert (He' : e = er_prepend (ok_exp o) (ok_con o) eb) by (simpl in Hf; congruence).
      clear Hf. subst e.
      destruct (Hgood _ _ _ K1 Ha) as (G1 & G2 & G3).
      apply obind_ret in HF as [rB [HB HF]]. apply obind_ret in HF as [rC [HC HF]]. injection HF as <-.
      pose proof (IH _ _ _ _ _ _ _ _ K2 (proj2 G1) G2 Hb HB) as Q.
      eapply agrees_fmap in Q; [|exact HC].
      destruct (ok_con o) eqn:Hco.
      * apply (agrees_weaken (has_with B g2) _ False).
        -- apply has_sub; eauto with first.
        -- tauto.
        -- assert (Q' : agrees (has_with B g2) (bare_with E B g2)
             (er_prepend (ok_exp o) true eb) (res_prepend (ok_exp o) true rC)) by (apply agrees_prepend; exact Q).
           eapply agrees_weaken; [exact (fun K => K)| |exact Q']. unfold er_prepend.
           destruct (er_con eb) eqn:Hx; simpl; rewrite ?Hx, ?orb_true_r; congruence.
      * apply agrees_prepend. eapply agrees_weaken; [| |exact Q]; [apply has_sub; eauto with first|].
        intros _ Hbw. eapply bw_seq_r; eauto.
    + pose proof (IH _ _ _ _ _ _ _ _ K1 Hp Hc Ha HA) as Q. injection Hf as <-.
      assert (Q' : agrees (has_with C (GSeq g1 g2 merge)) (bare_with E C (GSeq g1 g2 merge)) ea rA).
      { eapply agrees_weaken; [| |exact Q]; [apply has_sub; auto with first|auto with first]. }
      destruct rA as [o|e'|rc]; [destruct Q| |].
      * injection HF as <-. exact Q'.
      * eapply agrees_continue; eauto.
  - unfold maybe_fast in Hf. unfold maybe_full in HF.
    apply obind_ret in Hf as [ra [Ha Hf]]. apply obind_ret in HF as [rA [HA HF]].
    destruct ra as [o|ea]; [simpl in Hf; discriminate|].
    destruct (er_con ea) eqn:Hea; [|discriminate]. injection Hf as <-.
    pose proof (IH _ _ _ _ _ _ _ _ Hk Hp Hc Ha HA) as Q.
    assert (Q' : agrees (has_with _ (GMaybe g)) (bare_with E _ (GMaybe g)) ea rA).
    { eapply agrees_weaken; [| |exact Q]; [apply has_sub; auto with first|congruence]. }
    assert (Hcb : res_con rA = true).
    { destruct rA as [o|eb'|rc]; [destruct Q| |]; simpl in Q |- *; [congruence|].
      destruct Q as (_ & Q & _). congruence. }
    destruct rA as [o|e'|rc]; [destruct Q| |]; rewrite Hcb in HF; eapply agrees_fmap; eauto.
  - eapply agrees_weaken; [| |eapply (many_first A g n ins (has_with _ (GMany g))); [| | | | |exact Hf|exact HF]].
    + auto.
    + intros _ [].
    + intros. eapply IH; eauto.
    + intros pos' c' o Hp' Hc' H'. pose proof (everywhere_refl E _ _ _ Hk) as (Hok' & _).
      eapply fast_good in H'; eauto. destruct H' as (_ & H2 & _ & H4 & _). split; [lia|auto].
    + apply has_sub; auto with first.
    + auto.
    + auto.
  - destruct Hatt. exact I.
  - unfold label_fast in Hf. unfold label_full in HF.
    apply obind_ret in Hf as [ra [Ha Hf]]. apply obind_ret in HF as [rA [HA HF]].
    destruct ra as [o|ea]; [simpl in Hf; discriminate|].
    pose proof (IH _ _ _ _ _ _ _ _ Hk Hp Hc Ha HA) as Q.
    assert (He' : e = er_set_exp [x] ea) by (simpl in Hf; congruence). subst e. injection HF as <-.
    eapply agrees_set_exp. eapply agrees_weaken; [| |exact Q]; [apply has_sub; auto with first|].
    intros _ K. exact K.
  - unfold recover_fast in Hf. unfold recover_full in HF. apply obind_ret in HF as [rA [HA HF]].
    pose proof (IH _ _ _ _ _ _ _ _ Hk Hp Hc Hf HA) as Q.
    assert (Q' : agrees (has_with _ (GRecover g)) (bare_with E _ (GRecover g)) e rA).
    { eapply agrees_weaken; [| |exact Q]; [apply has_sub; auto with first|auto with first]. }
    destruct rA as [o|e'|rc]; injection HF as <-; auto.
    destruct Q' as (R1 & R2 & R3 & R4). simpl. repeat split; auto.
    intros rep Hin. apply in_map_iff in Hin as (r0 & <- & Hin). exact (R4 r0 Hin).
  - eapply agrees_weaken; [| |eapply (Hw _ _ _ _ Hk Hsw Hf Hhere (has_with A (GRecoverWith g x l))); [| |exact HF]]; auto with first.
    + apply has_sub; auto with first.
    + exists A, (GRecoverWith g x l). split; [apply oc_refl|exact I].
  - eapply agrees_weaken; [| |eapply (Hw _ _ _ _ Hk Hsw Hf Hhere (has_with A (GRecoverWithFn g fn lab))); [| |exact HF]]; auto with first.
    + apply has_sub; auto with first.
    + exists A, (GRecoverWithFn g fn lab). split; [apply oc_refl|exact I].
  - unfold block_fast in Hf. unfold block_full in HF.
    apply obind_ret in Hf as [ra [Ha Hf]]. apply obind_ret in HF as [rA [HA HF]].
    destruct ra as [o|ea]; [discriminate|]. injection Hf as <-. injection HF as <-. apply agrees_ctx.
    eapply agrees_weaken; [| |exact (IH _ _ _ _ _ _ _ _ Hk Hp (cs_mark _ _ _ _ _ CS _ _ _ Hupd) Ha HA)];
      [apply has_sub; auto with first|auto with first].
  - unfold aligned_fast in Hf. unfold aligned_full in HF. cbv zeta in Hf, HF.
    destruct (Z.eqb _ _).
    + eapply agrees_weaken; [| |exact (IH _ _ _ _ _ _ _ _ Hk Hp Hupd Hf HF)];
        [apply has_sub; auto with first|auto with first].
    + injection Hf as <-. injection HF as <-. reflexivity.
  - unfold indented_fast in Hf. unfold indented_full in HF. cbv zeta in Hf, HF.
    destruct (Z.eqb _ _).
    + apply obind_ret in Hf as [ra [Ha Hf]]. apply obind_ret in HF as [rA [HA HF]].
      destruct ra as [o|ea]; [discriminate|]. injection Hf as <-. injection HF as <-. apply agrees_ctx.
      eapply agrees_weaken; [| |exact (IH _ _ _ _ _ _ _ _ Hk Hp (cs_mark _ _ _ _ _ CS _ _ _ Hupd) Ha HA)];
        [apply has_sub; auto with first|auto with first].
    + injection Hf as <-. injection HF as <-. reflexivity.
  - assert (Hd : everywhere E fine (E d)) by (eapply everywhere_delay; [exact Hg|apply oc_refl]).
    eapply agrees_weaken; [| |exact (IH _ _ _ _ _ _ _ _ Hd Hp Hc Hf HF)];
        [apply has_sub; auto with first|auto with first].
  - discriminate.
Qed.
End First.
