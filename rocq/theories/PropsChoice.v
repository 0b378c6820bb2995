(** C14, C15: choice. *)
From Verif Require Export RunLemmas PropsLaws.

Section Choice.
Context {T : Type} {V : nat -> Type}.
Variable E : env T V.
Notation gram := (gram T V).
Implicit Types s : list T.

Lemma alt_fast_step {A} (p q : gram A) n s i c :
  fast E (S n) (GAlt p q) s i c = alt_fast (fast E n p) (fast E n q) s i c.
Proof. reflexivity. Qed.
Lemma alt_full_step {A} (p q : gram A) n s i c ins rem :
  full E (S n) (GAlt p q) s i c ins rem = alt_full (full E n p) (full E n q) s i c ins rem.
Proof. reflexivity. Qed.

Lemma alt_after_failure {A} (e : errr) (rq : sres T A) : er_con e = false ->
  (if sres_con rq then Ret rq
   else match rq with
        | SOk ob => Ret (SOk (ok_set_exp (Append (er_exp e) (ok_exp ob)) ob))
        | SErr eb => Ret (SErr (Err (er_loc e) (Append (er_exp e) (er_exp eb)) false))
        end) = Ret (after_failure e rq).
Proof.
  intros He. destruct rq as [[v j c x []]|[l x []]]; reflexivity.
Qed.

Theorem C14_choice_committed A (p q : gram A) s i c r :
  runs E (GAlt p q) s i c r <->
  (exists o, runs E p s i c (SOk o) /\ r = SOk o) \/
  (exists e, runs E p s i c (SErr e) /\ er_con e = true /\ r = SErr e) \/
  (exists e rq, runs E p s i c (SErr e) /\ er_con e = false /\
     runs E q s i c rq /\ r = after_failure e rq).
Proof.
  split.
  - intros [n H]. destruct n as [|n]; [discriminate|]. rewrite alt_fast_step in H. unfold alt_fast in H.
    apply obind_ret in H as [ra [Ha H]]. destruct ra as [o|e].
    + left. exists o. split; [exists n; auto|congruence].
    + right. destruct (er_con e) eqn:He.
      * left. exists e. split; [exists n; auto|split; [auto|congruence]].
      * right. apply obind_ret in H as [rb [Hb H]]. rewrite (alt_after_failure e rb He) in H.
        exists e, rb. split; [exists n; auto|]. split; auto. split; [exists n; auto|congruence].
  - intros [(o & H & ->)|[(e & H & He & ->)|(e & rq & H & He & Hq & ->)]].
    + destruct H as [n H]. exists (S n). rewrite alt_fast_step. unfold alt_fast. rewrite H. reflexivity.
    + destruct H as [n H]. exists (S n). rewrite alt_fast_step. unfold alt_fast. rewrite H. simpl.
      rewrite He. reflexivity.
    + apply runs_lim in H, Hq. destruct H as [n H], Hq as [m Hq]. exists (S (n + m)).
      rewrite alt_fast_step. unfold alt_fast. rewrite H by lia. cbn [obind]. rewrite He, Hq by lia. cbn [obind].
      apply alt_after_failure; auto.
Qed.

Theorem C14_choice_exceptions A (p q : gram A) s i c x :
  raises E (GAlt p q) s i c x <->
  raises E p s i c x \/
  (exists e, runs E p s i c (SErr e) /\ er_con e = false /\ raises E q s i c x).
Proof.
  split.
  - intros [[|n] H]; [discriminate|]. rewrite alt_fast_step in H. unfold alt_fast in H.
    destruct (fast E n p s i c) as [[o|e]|y|] eqn:Hp; cbn [obind] in H; try discriminate.
    + destruct (er_con e) eqn:He; [discriminate|]. right. exists e.
      split; [exists n; auto|]. split; auto. exists n.
      destruct (fast E n q s i c) as [rb|y|]; cbn [obind] in H; try discriminate.
      * rewrite (alt_after_failure e rb He) in H. discriminate.
      * congruence.
    + left. exists n. congruence.
  - intros [[n H]|(e & H & He & Hq)].
    + exists (S n). rewrite alt_fast_step. unfold alt_fast. rewrite H. reflexivity.
    + apply runs_lim in H. apply raises_lim in Hq. destruct H as [n H], Hq as [m Hq]. exists (S (n + m)).
      rewrite alt_fast_step. unfold alt_fast. rewrite H by lia. cbn [obind]. rewrite He, Hq by lia. reflexivity.
Qed.

(** what the recovering functions do when the plain ones return *)
Lemma full_of_ok {A} (p : gram A) n s i c ins rem o :
  fast E n p s i c = Ret (SOk o) -> full E n p s i c ins rem = Ret (ROk o).
Proof. apply full_ok_iff. Qed.
Lemma full_of_uncon {A} (p : gram A) n s i c ins e :
  fast E n p s i c = Ret (SErr e) -> er_con e = false -> full E n p s i c ins None = Ret (RErr e).
Proof.
  intros H He. pose proof (sim_fast_full E n A p s i c ins None) as S. rewrite H in S. simpl in S.
  rewrite He in S. exact S.
Qed.
Lemma full_of_con {A} (p : gram A) n s i c ins e r :
  fast E n p s i c = Ret (SErr e) -> er_con e = true -> full E n p s i c ins None = Ret r ->
  not_ok r /\ res_con r = true.
Proof.
  intros H He Hr. pose proof (sim_fast_full E n A p s i c ins None) as S. rewrite H in S. simpl in S.
  rewrite He in S. auto.
Qed.
Lemma alt_take {A} (p q : pfull T A) s pos c ins rem r :
  p s pos c ins None = Ret r -> (res_con r = true \/ exists o, r = ROk o) ->
  alt_full p q s pos c ins rem = Ret r.
Proof.
  intros H Hr. apply (alt_full_take s pos c ins p q rem r H).
  destruct r as [o|e|rc]; auto; simpl in *; destruct Hr as [->|[o Ho]]; auto; discriminate.
Qed.
Lemma alt_take_inv {A} (p q : gram A) n s pos c ins rem r e :
  full E n (GAlt p q) s pos c ins rem = Ret r ->
  runs E p s pos c (SErr e) -> er_con e = true -> full E n p s pos c ins None = Ret r.
Proof.
  intros H Hp He. destruct n as [|n]; [discriminate|]. rewrite alt_full_step in H.
  assert (K : full E n p s pos c ins None = Ret r).
  { unfold alt_full in H. apply obind_ret in H as [ra [Ha H]].
    apply runs_lim in Hp. destruct Hp as [m Hp].
    assert (Hm : full E (n + m) p s pos c ins None = Ret ra).
    { pose proof (full_lef E n (n + m) ltac:(lia) _ p s pos c ins None) as L. rewrite Ha in L.
      destruct L; congruence. }
    pose proof (Hp (n + m) ltac:(lia)) as Hf.
    destruct (full_of_con p (n + m) s pos c ins e ra Hf He Hm) as [Hn Hc].
    destruct ra as [o|[la xa ca]|[reps mn la xa ca]]; simpl in Hn, Hc; [tauto|subst ca|subst ca]; congruence. }
  pose proof (full_lef E n (S n) ltac:(lia) _ p s pos c ins None) as L. rewrite K in L. destruct L; congruence.
Qed.

(** recovery mode *)
Theorem C14_choice_committed_recovery A (p q : gram A) s i c ins rem :
  (forall o, runs E p s i c (SOk o) -> recovers E (GAlt p q) s i c ins rem (ROk o)) /\
  (forall e, runs E p s i c (SErr e) -> er_con e = true ->
     forall r, recovers E (GAlt p q) s i c ins rem r <-> recovers E p s i c ins None r) /\
  (forall e, runs E p s i c (SErr e) -> er_con e = false ->
     (forall o, runs E q s i c (SOk o) ->
        recovers E (GAlt p q) s i c ins rem (sres_res (after_failure e (SOk o)))) /\
     (forall f, runs E q s i c (SErr f) -> er_con f = true ->
        forall r, recovers E (GAlt p q) s i c ins rem r <-> recovers E q s i c ins None r) /\
     (forall f, runs E q s i c (SErr f) -> er_con f = false -> rem = None ->
        recovers E (GAlt p q) s i c ins rem (RErr (Err (er_loc e) (er_exp e ++ er_exp f) false)))).
Proof.
  split; [|split].
  - intros o [n H]. exists (S n). rewrite alt_full_step. apply alt_take; [apply full_of_ok; auto|eauto].
  - intros e Hp He r. split.
    + intros [n H]. exists n. eapply alt_take_inv; eauto.
    + intros Hr. apply recovers_lim in Hr. apply runs_lim in Hp. destruct Hr as [n Hr], Hp as [m Hp].
      exists (S (n + m)). rewrite alt_full_step. apply alt_take; [apply Hr; lia|]. left.
      eapply full_of_con; [apply (Hp (n + m)); lia|auto|apply Hr; lia].
  - intros e Hp He. apply runs_lim in Hp. destruct Hp as [n Hp]. split; [|split].
    + intros o Hq. apply runs_lim in Hq. destruct Hq as [m Hq]. exists (S (n + m)). rewrite alt_full_step.
      rewrite (alt_full_fail s i c ins _ _ rem (RErr e) (er_loc e) (er_exp e)).
      * rewrite (full_of_ok q (n + m) s i c ins None o) by (apply Hq; lia). cbn [obind].
        destruct o as [v j c' x []]; reflexivity.
      * apply full_of_uncon; auto. apply Hp; lia.
      * simpl. rewrite He. reflexivity.
    + intros f Hq Hf. apply runs_lim in Hq. destruct Hq as [m Hq].
      assert (G : forall k r, n + m <= k -> full E k q s i c ins None = Ret r ->
        full E (S k) (GAlt p q) s i c ins rem = Ret r).
      { intros k r Hk Hr. rewrite alt_full_step.
        rewrite (alt_full_fail s i c ins _ _ rem (RErr e) (er_loc e) (er_exp e)).
        - rewrite Hr. cbn [obind].
          destruct (full_of_con q k s i c ins f r) as [_ ->]; auto. apply Hq; lia.
        - apply full_of_uncon; auto. apply Hp; lia.
        - simpl. rewrite He. reflexivity. }
      intros r. split.
      * intros [k H]. destruct k as [|k]; [discriminate|]. rewrite alt_full_step in H.
        unfold alt_full in H. apply obind_ret in H as [ra [Ha H]].
        assert (Hra : ra = RErr e).
        { pose proof (full_lef E k (k + n) ltac:(lia) _ p s i c ins None) as L. rewrite Ha in L.
          assert (K : full E (k + n) p s i c ins None = Ret (RErr e)) by (apply full_of_uncon; auto; apply Hp; lia).
          destruct L; congruence. }
        subst ra. destruct e as [le xe ce]; simpl in He; subst ce. apply obind_ret in H as [rb [Hb H]].
        assert (Hrb : res_con rb = true).
        { pose proof (full_lef E k (k + m) ltac:(lia) _ q s i c ins None) as L. rewrite Hb in L.
          destruct L as [L|L]; [congruence|].
          destruct (full_of_con q (k + m) s i c ins f rb) as [_ K]; auto. apply Hq; lia. }
        rewrite Hrb in H. exists k. congruence.
      * intros Hr. apply recovers_lim in Hr. destruct Hr as [k Hr]. exists (S (k + (n + m))).
        apply G; [lia|]. apply Hr; lia.
    + intros f Hq Hf ->. apply runs_lim in Hq. destruct Hq as [m Hq]. exists (S (n + m)). rewrite alt_full_step.
      rewrite (alt_full_fail s i c ins _ _ None (RErr e) (er_loc e) (er_exp e)).
      * rewrite (full_of_uncon q (n + m) s i c ins f); auto; [|apply Hq; lia]. cbn [obind res_con].
        rewrite Hf. reflexivity.
      * apply full_of_uncon; auto. apply Hp; lia.
      * simpl. rewrite He. reflexivity.
Qed.

(** ** C15 *)
Lemma core_set_exp {A} x (r : repair T A) : core (rep_set_exp x r) = core r.
Proof.
  unfold core; simpl. unfold ops_set_expected. rewrite map_map.
  replace (map (fun x0 : opitem => _) (r_ops r)) with (map (fun o => (op_op o, op_loc o, op_con o)) (r_ops r)).
  - reflexivity.
  - apply map_ext. intros o. destruct (op_con o) eqn:Ho; simpl; rewrite ?Ho; reflexivity.
Qed.
Lemma has_prio_prioritised {A} (l : list (repair T A)) : filter has_prio l = filter prioritised l.
Proof. reflexivity. Qed.

(** both alternatives fail at once: in recovery the repairs of [p] are offered
    in order, then exactly the prioritised repairs of [q] (all of [q]'s if [p]
    cannot recover at all); every operation not preceded by consumed input
    reports the expected values of both *)
Theorem C15_choice_offers A (p q : gram A) s i c ins m e f a b :
  runs E p s i c (SErr e) -> er_con e = false ->
  runs E q s i c (SErr f) -> er_con f = false ->
  recovers E p s i c ins (Some m) a -> recovers E q s i c ins (Some m) b ->
  exists r, recovers E (GAlt p q) s i c ins (Some m) r /\
    map core (offers r) =
      map core (match a with
                | RRec _ => offers a ++ filter prioritised (offers b)
                | _ => offers b
                end) /\
    (forall rep o, In rep (offers r) -> In o (r_ops rep) -> op_con o = false ->
       op_exp o = er_exp e ++ er_exp f) /\
    (forall x, r = RErr x -> x = Err (er_loc e) (er_exp e ++ er_exp f) false) /\
    (forall o, r <> ROk o).
Proof.
  intros Hp He Hq Hf Ha Hb.
  apply runs_lim in Hp, Hq. apply recovers_lim in Ha, Hb.
  destruct Hp as [n1 Hp], Hq as [n2 Hq], Ha as [n3 Ha], Hb as [n4 Hb].
  set (n := n1 + n2 + n3 + n4).
  assert (Na : forall o, a <> ROk o).
  { intros o ->. specialize (Ha n ltac:(lia)). apply full_ok_iff in Ha. rewrite Hp in Ha by lia. discriminate. }
  assert (Nb : forall o, b <> ROk o).
  { intros o ->. specialize (Hb n ltac:(lia)). apply full_ok_iff in Hb. rewrite Hq in Hb by lia. discriminate. }
  assert (K : full E (S n) (GAlt p q) s i c ins (Some m) =
    alt_recover (full E n p) (full E n q) (er_loc e) (er_exp e ++ er_exp f) s i c ins (Some m)).
  { rewrite alt_full_step. rewrite (alt_full_fail s i c ins _ _ (Some m) (RErr e) (er_loc e) (er_exp e)).
    - rewrite (full_of_uncon q n s i c ins f); auto; [|apply Hq; lia]. cbn [obind res_con].
      rewrite Hf. reflexivity.
    - apply full_of_uncon; auto. apply Hp; lia.
    - simpl. rewrite He. reflexivity. }
  unfold alt_recover in K. rewrite (Ha n), (Hb n) in K by lia. cbn [obind] in K.
  assert (Hx : forall x (rc : recr T A) rep o, In rep (rc_reps (rec_set_exp x rc)) ->
    In o (r_ops rep) -> op_con o = false -> op_exp o = x).
  { intros x rc rep o Hin Ho Hc. simpl in Hin. apply in_map_iff in Hin as (r0 & <- & Hin).
    simpl in Ho. unfold ops_set_expected in Ho. apply in_map_iff in Ho as (o0 & <- & _).
    destruct (op_con o0) eqn:Hc0; simpl in *; congruence. }
  assert (Hcore : forall x (rc : recr T A), map core (rc_reps (rec_set_exp x rc)) = map core (rc_reps rc)).
  { intros x rc. simpl. rewrite map_map. apply map_ext. intros; apply core_set_exp. }
  destruct a as [oa|ea|ra]; [destruct (Na oa); reflexivity| |];
    (destruct b as [ob|eb|rb]; [destruct (Nb ob); reflexivity| |]);
    (eexists; split; [exists (S n); exact K|]).
  - repeat split; try discriminate; simpl; try tauto. intros x Hxx. injection Hxx as <-. reflexivity.
  - split; [|repeat split]; try discriminate; [apply (Hcore _ rb)|].
    intros rep o; apply (Hx _ rb).
  - split; [|repeat split]; try discriminate; [simpl; rewrite app_nil_r; apply (Hcore _ ra)|].
    intros rep o; apply (Hx _ ra).
  - split; [|repeat split]; try discriminate.
    + unfold offers. rewrite Hcore. rewrite join_is_nf.
      * reflexivity.
      * apply (full_prios E n A p s i c ins (Some m) (RRec ra)). apply Ha; lia.
      * apply (full_prios E n A q s i c ins (Some m) (RRec rb)). apply Hb; lia.
    + intros rep o; apply (Hx _ (join_repairs ra rb)).
Qed.
End Choice.

(** what priorities mean *)
Section PrioMeaning.
Context {T : Type} {V : nat -> Type}.

Definition first_insert {A} (r : repair T A) : Prop :=
  exists o ops l, r_ops r = o :: ops /\ op_op o = Insert l.

Lemma first_op {A B} (r : repair T A) (r' : repair T B) :
  map op_op (r_ops r) = map op_op (r_ops r') -> first_insert r -> first_insert r'.
Proof.
  intros H (o & ops & l & Ho & Hl). rewrite Ho in H. simpl in H.
  destruct (r_ops r') as [|o' ops'] eqn:Hr; [discriminate|]. simpl in H. injection H as H1 H2.
  exists o', ops', l. split; auto. congruence.
Qed.
Lemma first_join {A B C} (merge : A -> B -> C) (r : repair T A) (r' : repair T B) :
  r_ops r <> [] -> (first_insert (cont_rec merge r r') <-> first_insert r).
Proof.
  intros Hn. unfold first_insert. simpl. unfold join_ops.
  destruct (r_ops r) as [|o ops]; [contradiction|]. simpl.
  split; intros (o' & ops' & l & H & Hl); injection H as <- <-; [exists o, ops, l|]; auto.
  eexists _, _, l. split; [reflexivity|]. exact Hl.
Qed.

Lemma none_stable : rep_stable (fun A (r : repair T A) =>
  r_ops r <> [] /\ (r_prio r = None -> first_insert r)).
Proof.
  constructor; simpl.
  - intros; split; [discriminate|]. intros _. eexists _, _, _. split; reflexivity.
  - intros; split; [discriminate|]. intros _. eexists _, _, _. split; reflexivity.
  - intros; split; discriminate.
  - intros; split; discriminate.
  - intros A B f r r' [H1 H2] H. unfold rep_fmap in H. apply obind_ret in H as [v [_ H]]. injection H as <-.
    split; auto.
  - intros A c r [H1 H2]. split; auto.
  - intros A x r [H1 H2]. split.
    + intros K. apply H1. apply map_eq_nil in K. exact K.
    + intros K. apply (first_op r); auto. simpl. rewrite set_exp_op. reflexivity.
  - intros A x b r [H1 H2]. split.
    + intros K. apply H1. apply map_eq_nil in K. exact K.
    + intros K. apply (first_op r); auto. simpl. rewrite prep_op. reflexivity.
  - intros _ A r [H1 H2]. split; auto. destruct (r_prio r); discriminate.
  - intros A B C ins merge r o [H1 H2]. split; auto.
  - intros A B C merge r r' [H1 H2] [K1 K2]. split.
    + unfold join_ops. intros K. apply app_eq_nil in K as [K _]. apply map_eq_nil in K. auto.
    + intros K. apply first_join; auto.
Qed.
Lemma marked_stable : rep_stable_if False (fun A (r : repair T A) =>
  r_ops r <> [] /\ (first_insert r -> r_prio r = None)).
Proof.
  constructor; simpl; try tauto.
  - intros; split; [discriminate|auto].
  - intros A m v pos c l n x; split; [discriminate|]. intros (o & ops & lb & H & Hl); simpl in H.
    injection H as <- <-. discriminate.
  - intros A m v pos c l n x; split; [discriminate|]. intros (o & ops & lb & H & Hl); simpl in H.
    injection H as <- <-. discriminate.
  - intros A B f r r' [H1 H2] H. unfold rep_fmap in H. apply obind_ret in H as [v [_ H]]. injection H as <-.
    split; auto.
  - intros A x r [H1 H2]. split.
    + intros K. apply H1. apply map_eq_nil in K. exact K.
    + intros K. apply H2. apply (first_op (rep_set_exp x r)); auto. simpl. rewrite set_exp_op. reflexivity.
  - intros A x b r [H1 H2]. split.
    + intros K. apply H1. apply map_eq_nil in K. exact K.
    + intros K. apply H2. apply (first_op (rep_prepend x b r)); auto. simpl. rewrite prep_op. reflexivity.
  - intros A B C merge r r' [H1 H2] [K1 K2]. split.
    + unfold join_ops. intros K. apply app_eq_nil in K as [K _]. apply map_eq_nil in K. auto.
    + intros K. apply H2. eapply first_join; eauto.
Qed.

(** a repair that is not prioritised starts with an insertion, so repairs that
    start with a skip are always offered; without [recover] and [recover_with]
    the prioritised repairs are exactly those that do not start with an
    insertion; all repairs of [p.recover()] are prioritised *)
Definition no_mark {A} (g : gram T V A) : Prop := gall (fun A g => ~ is_mark A g) g.
Theorem C15_priority_meaning (E : env T V) A (g : gram T V A) s i c ins rem r rep :
  recovers E g s i c ins rem r -> In rep (offers r) ->
  (prioritised rep = false -> first_insert rep) /\
  (no_mark g -> (forall d, no_mark (E d)) -> first_insert rep -> prioritised rep = false).
Proof.
  intros [n H] Hin. destruct r as [o|e|rc]; simpl in Hin; try contradiction. split.
  - intros Hp. apply (full_resQ _ none_stable) in H. apply (H rep Hin).
    unfold prioritised in Hp. destruct (r_prio rep); auto; discriminate.
  - intros Hg HE Hf. apply (full_resQ_if False _ marked_stable) in H.
    + destruct (H rep Hin) as [_ K]. unfold prioritised. rewrite K; auto.
    + intros d. exact (HE d).
    + exact Hg.
Qed.
Theorem C15_recover_marks (E : env T V) A (p : gram T V A) s i c ins rem r rep :
  recovers E (GRecover p) s i c ins rem r -> In rep (offers r) -> prioritised rep = true.
Proof.
  intros [[|n] H] Hin; [discriminate|]. cbn [full] in H. unfold recover_full in H.
  apply obind_ret in H as [r0 [_ H]]. destruct r0 as [o|e|rc]; injection H as <-; simpl in Hin; try contradiction.
  apply in_map_iff in Hin as (r1 & <- & _). unfold prioritised; simpl. destruct (r_prio r1); reflexivity.
Qed.
End PrioMeaning.
Print Assumptions C14_choice_committed.
Print Assumptions C14_choice_exceptions.
Print Assumptions C14_choice_committed_recovery.
Print Assumptions C15_choice_offers.
Print Assumptions C15_priority_meaning.
Print Assumptions C15_recover_marks.

(** all cases of the choice theorem occur: success of the first, committed
    failure, second alternative with and without consumption, both fail *)
Definition ch_run {A} (g : ex_gram A) (s : string) : out (sres char A) :=
  fast ex_E 60 g (ex_str s) 0 law_c.
Example C14_case :
  let p := seqr (ex_sym "a") (ex_sym "b") in
  let q := seqr (ex_sym "a") (ex_sym "c") in
  ch_run p "ab" = ch_run (GAlt p q) "ab" /\
  (exists e, ch_run p "ac" = Ret (SErr e) /\ er_con e = true /\ ch_run (GAlt p q) "ac" = Ret (SErr e)) /\
  (exists e, ch_run p "c" = Ret (SErr e) /\ er_con e = false /\
     ch_run (GAlt p (GFmap (GMaybe (ex_sym "d")) (fun _ => Ret 0%N))) "c" =
     Ret (SOk (Ok 0%N 0 law_c ["'a'"; "'d'"]%string false))) /\
  ch_run (GAlt p (ex_sym "d")) "x" =
  Ret (SErr (Err (Loc 0 0 0) ["'a'"; "'d'"]%string false)).
Proof.
  vm_compute. split; [reflexivity|]. split; [eexists; repeat split|]. split; [eexists; repeat split|]. reflexivity.
Qed.
(** 'a' | 'b'.recover() on "xab": insertion and skip of 'a', insertion and skip
    of 'b'; without recover() the insertion of 'b' is not offered; if the first
    alternative cannot recover it is *)
Definition ch_ops {A} (r : out (res char A)) : list (list rop) :=
  match r with Ret (RRec rc) => map (fun r => map op_op (r_ops r)) (rc_reps rc) | _ => [] end.
Example C15_case :
  ch_ops (law_rec (GAlt (ex_sym "a") (GRecover (ex_sym "b"))) "xab") =
    [[Insert "'a'"]; [Skip 1]; [Insert "'b'"]; [Skip 2]] /\
  ch_ops (law_rec (GAlt (ex_sym "a") (ex_sym "b")) "xab") = [[Insert "'a'"]; [Skip 1]; [Skip 2]] /\
  ch_ops (law_rec (GAlt (GSatisfy (fun x => Ret (N.eqb x 0))) (ex_sym "b")) "xab") =
    [[Insert "'b'"]; [Skip 2]].
Proof. vm_compute. auto. Qed.
