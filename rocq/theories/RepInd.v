(** Induction principle for the repairs offered by a parser, and what follows
    from it for all parsers without any assumption: a repair reports at least
    one operation, its cost is the number of inserted symbols plus skipped
    tokens, and its priority is None or 0. *)
From Verif Require Export Simulation Spec.

Section RepInd.
Context {T : Type} {V : nat -> Type}.

(** parsers that give automatic or user insertions a priority *)
Definition is_mark A (g : gram T V A) : Prop :=
  match g with GRecover _ | GRecoverWith _ _ _ | GRecoverWithFn _ _ _ => True | _ => False end.
(** [um]: such parsers may be used *)
Record rep_stable_if (um : Prop) (Q : forall A, repair T A -> Prop) : Prop := {
  rs_insert : forall A m (v : A) pos c l lab x, Q A (make_insert m v pos c l lab x);
  rs_user : um -> forall A m (v : A) pos c l lab x, Q A (make_user_insert m v pos c l lab x);
  rs_skip : forall A m (v : A) pos c l n x, Q A (make_skip m v pos c l n x);
  rs_pending : forall A m (v : A) pos c l n x, Q A (make_pending_skip m v pos c l n x);
  rs_fmap : forall A B (f : A -> out B) r r', Q A r -> rep_fmap f r = Ret r' -> Q B r';
  rs_ctx : forall A c r, Q A r -> Q A (rep_set_ctx c r);
  rs_exp : forall A x r, Q A r -> Q A (rep_set_exp x r);
  rs_prep : forall A x b r, Q A r -> Q A (rep_prepend x b r);
  rs_prio : um -> forall A r, Q A r -> Q A (rep_set_prio r);
  rs_cok : forall A B C ins (merge : A -> B -> C) r o, Q A r -> Q C (cont_ok ins merge r o);
  rs_crec : forall A B C (merge : A -> B -> C) r r', Q A r -> Q B r' ->
    Q C (cont_rec merge r r')
}.

Definition rep_stable : (forall A, repair T A -> Prop) -> Prop := rep_stable_if True.

Section WithQ.
Variable um : Prop.
Variable Q : forall A, repair T A -> Prop.
Hypothesis S : rep_stable_if um Q.

Definition resQ {A} (r : res T A) : Prop :=
  match r with RRec rc => forall rep, In rep (rc_reps rc) -> Q A rep | _ => True end.

Lemma mapM_in' {A B} (f : A -> out B) l l' y :
  mapM f l = Ret l' -> In y l' -> exists x, In x l /\ f x = Ret y.
Proof.
  revert l'. induction l as [|x l IH]; simpl; intros l' H Hy.
  - injection H as <-. destruct Hy.
  - apply obind_ret in H as [y0 [H0 H]]. apply obind_ret in H as [ys [H1 H]].
    injection H as <-. destruct Hy as [->|Hy].
    + exists x; auto.
    + destruct (IH _ H1 Hy) as (x' & Hx & Hf). exists x'; auto.
Qed.
Lemma flat_mapM_in' {A B} (f : A -> out (list B)) l l' y :
  flat_mapM f l = Ret l' -> In y l' -> exists x ys, In x l /\ f x = Ret ys /\ In y ys.
Proof.
  revert l'. induction l as [|x l IH]; simpl; intros l' H Hy.
  - injection H as <-. destruct Hy.
  - apply obind_ret in H as [y0 [H0 H]]. apply obind_ret in H as [ys [H1 H]].
    injection H as <-. apply in_app_or in Hy as [Hy|Hy].
    + exists x, y0; auto.
    + destruct (IH _ H1 Hy) as (x' & ys' & Hx & Hf & Hin). exists x', ys'; auto.
Qed.

Lemma resQ_fmap {A B} (f : A -> out B) r r' :
  resQ r -> res_fmap f r = Ret r' -> resQ r'.
Proof.
  destruct r; simpl; intros H Hf.
  - apply obind_ret in Hf as [o' [_ Hf]]. injection Hf as <-. exact I.
  - injection Hf as <-. exact I.
  - apply obind_ret in Hf as [o' [H1 Hf]]. injection Hf as <-.
    unfold rec_fmap in H1. apply obind_ret in H1 as [reps [H2 H1]]. injection H1 as <-.
    simpl. intros rep Hin. destruct (mapM_in' _ _ _ _ H2 Hin) as (x & Hx & Hf).
    eapply (rs_fmap _ _ S); eauto.
Qed.
Lemma resQ_exp {A} x (r : res T A) : resQ r -> resQ (res_set_exp x r).
Proof.
  destruct r; simpl; auto. intros H rep Hin. apply in_map_iff in Hin as (r0 & <- & Hin).
  apply (rs_exp _ _ S); auto.
Qed.
Lemma resQ_ctx {A} x (r : res T A) : resQ r -> resQ (res_set_ctx x r).
Proof.
  destruct r; simpl; auto. intros H rep Hin. apply in_map_iff in Hin as (r0 & <- & Hin).
  apply (rs_ctx _ _ S); auto.
Qed.
Lemma resQ_prep {A} x b (r : res T A) : resQ r -> resQ (res_prepend x b r).
Proof.
  destruct r; simpl; auto. intros H rep Hin. apply in_map_iff in Hin as (r0 & <- & Hin).
  apply (rs_prep _ _ S); auto.
Qed.
Lemma resQ_cont {A B C} (rc : recr T A) ins f (merge : A -> B -> C) r :
  (forall rep, In rep (rc_reps rc) -> Q A rep) ->
  (forall v p c z r, f v p c z = Ret r -> resQ r) ->
  continue_parse rc ins f merge = Ret r -> resQ r.
Proof.
  intros H Hf Hc. apply continue_ret in Hc as (reps & Hm & ->). simpl. intros rep Hin.
  destruct (flat_mapM_in' _ _ _ _ Hm Hin) as (ra & ys & Hin1 & H1 & H2).
  unfold cont_one in H1. apply obind_ret in H1 as [rb [Hb H1]].
  apply Hf in Hb. destruct rb as [o|e|rb]; injection H1 as <-.
  - destruct H2 as [<-|[]]. apply (rs_cok _ _ S); auto.
  - destruct H2.
  - apply in_map_iff in H2 as (rr & <- & Hrr). apply (rs_crec _ _ S); auto.
Qed.
Lemma resQ_join {A} (a b : recr T A) :
  resQ (RRec a) -> resQ (RRec b) -> resQ (RRec (join_repairs a b)).
Proof.
  simpl. intros Ha Hb.
  assert (H : forall f rep, In rep (rc_reps a ++ filter f (rc_reps b)) -> Q A rep).
  { intros f rep Hin. apply in_app_or in Hin as [Hin|Hin]; auto.
    apply filter_In in Hin as [Hin _]; auto. }
  unfold join_repairs. destruct (rc_min a); destruct (rc_con a); try destruct (rc_con b);
    simpl; apply H.
Qed.

Lemma resQ_many {A} (p : pfull T A) s ins :
  (forall pos c r, p s pos c ins None = Ret r -> resQ r) ->
  forall n con v pos c r, many_full p n con v s pos c ins = Ret r -> resQ r.
Proof.
  intros Hp n. induction n as [|n IH]; intros con v pos c r H; simpl in H; [discriminate|].
  apply obind_ret in H as [r0 [H0 H]]. apply Hp in H0. destruct r0 as [o|e|rc].
  - destruct (ok_con o); [eauto|discriminate].
  - destruct (er_con e); injection H as <-; exact I.
  - eapply resQ_cont in H; eauto.
Qed.

Lemma resQ_with {A} (p : pfull T A) mk lab s pos c ins rem r :
  um ->
  (forall r, p s pos c ins rem = Ret r -> resQ r) ->
  recover_with_full p mk lab s pos c ins rem = Ret r -> resQ r.
Proof.
  intros Hum Hp H. unfold recover_with_full in H. destruct rem as [z|]; [|auto].
  apply obind_ret in H as [r0 [H0 H]]. apply Hp in H0.
  destruct r0 as [o|e|rc].
  - injection H as <-; auto.
  - destruct (res_con (RErr e)); [injection H as <-; auto|].
    destruct (z =? 0)%Z; [injection H as <-; auto|]. apply obind_ret in H as [x [Hx H]].
    injection H as <-. simpl. intros rep [<-|[]]. apply (rs_user _ _ S Hum).
  - destruct (res_con (RRec rc)); [injection H as <-; auto|].
    destruct (z =? 0)%Z; [injection H as <-; auto|]. apply obind_ret in H as [x [Hx H]].
    injection H as <-. simpl. intros rep [<-|Hin]; [apply (rs_user _ _ S Hum)|auto].
Qed.

Definition marks_ok {A} (g : gram T V A) : Prop := gall (fun A g => is_mark A g -> um) g.
Lemma full_resQ_if (E : env T V) (HE : forall d, marks_ok (E d)) n :
  forall A (g : gram T V A) s pos c ins rem r,
  marks_ok g -> full E n g s pos c ins rem = Ret r -> resQ r.
Proof.
  induction n as [|n IH]; [discriminate|].
  intros A g. destruct g; intros s pos c ins rem r Hg H; cbn [full] in H; unfold marks_ok in Hg; simpl in Hg;
    destruct Hg as [Hum Hg].
  - injection H as <-; exact I.
  - unfold purefn_full in H. apply obind_ret in H as [x0 [_ H]]. injection H as <-; exact I.
  - injection H as <-; exact I.
  - unfold eof_full in H. destruct (Nat.eqb _ _); [injection H as <-; exact I|].
    destruct rem; injection H as <-; [|exact I]. intros rep [<-|[]]. apply (rs_pending _ _ S).
  - unfold satisfy_full in H. apply obind_ret in H as [x0 [_ H]].
    destruct x0; [injection H as <-; exact I|].
    destruct rem; [|injection H as <-; exact I]. apply obind_ret in H as [f [_ H]].
    destruct f as [[cur t]|]; injection H as <-; [|exact I].
    intros rep [<-|[]]. apply (rs_skip _ _ S).
  - unfold sym_full in H. apply obind_ret in H as [x0 [_ H]].
    destruct x0; [injection H as <-; exact I|].
    destruct rem; [|injection H as <-; exact I]. apply obind_ret in H as [f [_ H]].
    destruct f as [[cur t]|]; injection H as <-; intros rep Hin; simpl in Hin.
    + apply in_app_or in Hin as [Hin|[<-|[]]]; [|apply (rs_skip _ _ S)].
      destruct (z =? 0)%Z; simpl in Hin; [destruct Hin|destruct Hin as [<-|[]]]. apply (rs_insert _ _ S).
    + destruct (z =? 0)%Z; simpl in Hin; [destruct Hin|destruct Hin as [<-|[]]]. apply (rs_insert _ _ S).
  - unfold literal_full in H. destruct (starts_with _ _ _ _); [injection H as <-; exact I|].
    destruct rem; [|injection H as <-; exact I]. apply obind_ret in H as [f [_ H]].
    destruct f as [[cur t]|]; injection H as <-; intros rep Hin; simpl in Hin.
    + apply in_app_or in Hin as [Hin|[<-|[]]]; [|apply (rs_skip _ _ S)].
      destruct (z =? 0)%Z; simpl in Hin; [destruct Hin|destruct Hin as [<-|[]]]. apply (rs_insert _ _ S).
    + destruct (z =? 0)%Z; simpl in Hin; [destruct Hin|destruct Hin as [<-|[]]]. apply (rs_insert _ _ S).
  - unfold regexp_full in H. destruct (probe_re _ _ _) as [[e v]|]; [injection H as <-; exact I|].
    destruct rem; [|injection H as <-; exact I]. apply obind_ret in H as [f [_ H]].
    destruct f as [[cur [e v]]|]; injection H as <-; [|exact I].
    intros rep [<-|[]]. apply (rs_skip _ _ S).
  - unfold fmap_full in H. apply obind_ret in H as [r0 [H0 H]]. apply IH in H0; [|tauto].
    eapply resQ_fmap; eauto.
  - unfold alt_full in H. apply obind_ret in H as [ra [Ha H]].
    assert (Hrec : forall la x r, alt_recover (full E n g1) (full E n g2) la x s pos c ins rem
        = Ret r -> resQ r).
    { clear H. intros la x r' H. unfold alt_recover in H.
      destruct rem as [m|]; [|injection H as <-; exact I].
      apply obind_ret in H as [rra [Hra H]]. apply obind_ret in H as [rrb [Hrb H]].
      apply IH in Hra; [|tauto]. apply IH in Hrb; [|tauto].
      destruct rra as [?|?|a], rrb as [?|?|b]; injection H as <-; try exact I;
        try (apply (resQ_exp x (RRec _)); assumption).
      apply (resQ_exp x (RRec _)). apply resQ_join; assumption. }
    assert (Hb : forall xa la,
       (rb <- full E n g2 s pos c ins None ;;
          if res_con rb then Ret rb
          else
            let expected := Append xa (res_exp rb) in
            match rb with
            | ROk ob => Ret (ROk (ok_set_exp expected ob))
            | _ => alt_recover (full E n g1) (full E n g2) la expected s pos c ins rem
            end) = Ret r -> resQ r).
    { clear H. intros xa la H. apply obind_ret in H as [rb [Hb H]]. apply IH in Hb; [|tauto].
      destruct (res_con rb); [injection H as <-; exact Hb|]. cbv zeta in H.
      destruct rb; [injection H as <-; exact I| |]; eapply Hrec; exact H. }
    pose proof (IH _ _ _ _ _ _ _ _ (proj1 Hg) Ha) as Qa.
    destruct ra as [o|[la xa ca]|[reps mn la xa ca]].
    + injection H as <-; exact I.
    + destruct ca; [injection H as <-; exact I|]. eapply Hb; exact H.
    + destruct ca; [injection H as <-; exact Qa|]. eapply Hb; exact H.
  - unfold bind_full in H. apply obind_ret in H as [ra [Ha H]]. apply IH in Ha; [|tauto].
    destruct ra as [o|e|rc].
    + destruct (ok_con o); apply obind_ret in H as [rb [Hb H]]; (apply IH in Hb; [|apply Hg]);
        injection H as <-; apply resQ_prep; exact Hb.
    + injection H as <-; exact I.
    + eapply resQ_cont; [exact Ha| |exact H]. simpl. intros; eapply IH; [|eassumption]; apply Hg.
  - unfold seq_full in H. apply obind_ret in H as [ra [Ha H]]. apply IH in Ha; [|tauto].
    destruct ra as [o|e|rc].
    + apply obind_ret in H as [rb [Hb H]]; (apply IH in Hb; [|tauto]).
      apply obind_ret in H as [rc [Hc H]]. injection H as <-. apply resQ_prep.
      eapply resQ_fmap; eauto.
    + injection H as <-; exact I.
    + eapply resQ_cont; [exact Ha| |exact H]. simpl. intros; eapply IH; [|eassumption]; tauto.
  - unfold maybe_full in H. apply obind_ret in H as [r0 [H0 H]]. apply IH in H0; [|tauto].
    destruct r0.
    + eapply resQ_fmap; eauto.
    + destruct (res_con _); [eapply resQ_fmap; eauto|injection H as <-; exact I].
    + destruct (res_con _); [eapply resQ_fmap; eauto|injection H as <-; exact I].
  - eapply resQ_many; [|exact H]. intros; eapply IH; [|eassumption]; tauto.
  - unfold attempt_full in H. destruct rem; [eapply IH; [|eassumption]; tauto|].
    apply obind_ret in H as [r0 [_ H]]. destruct r0; injection H as <-; exact I.
  - unfold label_full in H. apply obind_ret in H as [r0 [H0 H]]. injection H as <-.
    apply resQ_exp. eapply IH; [|eassumption]; tauto.
  - unfold recover_full in H. apply obind_ret in H as [r0 [H0 H]]. apply IH in H0; [|tauto].
    destruct r0 as [?|?|rc]; injection H as <-; auto. simpl. intros rep Hin.
    apply in_map_iff in Hin as (r1 & <- & Hin). apply (rs_prio _ _ S); auto.
  - eapply resQ_with; [tauto| |exact H]. intros; eapply IH; [|eassumption]; tauto.
  - eapply resQ_with; [tauto| |exact H]. intros; eapply IH; [|eassumption]; tauto.
  - unfold block_full in H. apply obind_ret in H as [r0 [H0 H]]. injection H as <-.
    apply resQ_ctx. eapply IH; [|eassumption]; tauto.
  - unfold aligned_full in H. destruct (Z.eqb _ _); [eapply IH; [|eassumption]; tauto|injection H as <-; exact I].
  - unfold indented_full in H. destruct (Z.eqb _ _); [|injection H as <-; exact I].
    apply obind_ret in H as [r0 [H0 H]]. injection H as <-. apply resQ_ctx. eapply IH; [|eassumption]; tauto.
  - eapply IH; [|eassumption]. apply HE.
  - discriminate.
Qed.

End WithQ.

Lemma marks_any A (g : gram T V A) : marks_ok True g.
Proof. unfold marks_ok. induction g; simpl; repeat split; auto. Qed.
Lemma full_resQ Q (S : rep_stable Q) (E : env T V) n A (g : gram T V A) s pos c ins rem r :
  full E n g s pos c ins rem = Ret r -> resQ Q r.
Proof. apply (full_resQ_if True Q S E (fun d => marks_any _ (E d))). apply marks_any. Qed.

(** ** Facts that need no assumption on the grammar *)
Lemma set_exp_len ops x : List.length (ops_set_expected ops x) = List.length ops.
Proof. unfold ops_set_expected. apply map_length. Qed.
Lemma prep_len ops x b : List.length (ops_prepend_expected ops x b) = List.length ops.
Proof. unfold ops_prepend_expected. apply map_length. Qed.
Lemma set_exp_op ops x : map op_op (ops_set_expected ops x) = map op_op ops.
Proof.
  unfold ops_set_expected. rewrite map_map. apply map_ext. intros o.
  destruct (op_con o); reflexivity.
Qed.
Lemma prep_op ops x b : map op_op (ops_prepend_expected ops x b) = map op_op ops.
Proof.
  unfold ops_prepend_expected. rewrite map_map. apply map_ext. intros o.
  destruct (op_con o); reflexivity.
Qed.
Lemma join_op {A B} (r : repair T A) (r' : repair T B) :
  map op_op (join_ops r r') = map op_op (r_ops r) ++ map op_op (r_ops r').
Proof. unfold join_ops. rewrite map_app, prep_op, map_map. reflexivity. Qed.

Definition rep_basic A (r : repair T A) : Prop :=
  map op_op (r_ops r) <> [] /\ r_cost r = ops_cost (map op_op (r_ops r)) /\
  (r_prio r = None \/ r_prio r = Some 0).

Lemma basic_stable : rep_stable rep_basic.
Proof.
  unfold rep_stable, rep_basic. constructor; intros; simpl in *.
  1,2,3,4: repeat split; auto; try discriminate; unfold ops_cost; simpl; lia.
  - unfold rep_fmap in H0. apply obind_ret in H0 as [v [_ H0]]. injection H0 as <-. exact H.
  - exact H.
  - rewrite set_exp_op. exact H.
  - rewrite prep_op. exact H.
  - destruct H0 as (H1 & H2 & H3). repeat split; auto. destruct H3 as [->| ->]; auto.
  - exact H.
  - rewrite join_op. destruct H as (H1 & H2 & H3), H0 as (K1 & K2 & K3). repeat split; auto.
    + destruct (map op_op (r_ops r)); [contradiction|discriminate].
    + unfold ops_cost. rewrite map_app, list_sum_app, H2, K2. reflexivity.
Qed.

Theorem full_basic (E : env T V) n A (g : gram T V A) s pos c ins rem rc rep :
  full E n g s pos c ins rem = Ret (RRec rc) -> In rep (rc_reps rc) ->
  rep_basic A rep.
Proof. intros H Hin. apply (full_resQ _ basic_stable) in H. exact (H rep Hin). Qed.

End RepInd.
