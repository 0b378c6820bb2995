(** Property C44: parsing with recovery computes exactly the repairs of the
    declarative semantics [rsem] (RecSpec.v): which ones, in which order, with
    which costs, values, end positions and reported errors; and unwrap shows
    the first of the best ones. *)
From Verif Require Import RecProofs PropsPeg Examples.

Section Unwrap.
Context {T A : Type}.

Lemma key_lt_better (a b : repair T A) : key_lt a b = true <-> f_better (off a) (off b).
Proof.
  unfold key_lt, f_better; cbn -[Nat.ltb Nat.eqb].
  rewrite orb_true_iff, andb_true_iff, orb_true_iff, !andb_true_iff, !Nat.ltb_lt, !Nat.eqb_eq.
  destruct (r_prio a), (r_prio b); cbn; intuition; try congruence.
  all: try (right; split; auto; right; repeat split; auto; congruence).
Qed.
Let rk (x : offer A) := match f_rank x with None => 1 | Some _ => 0 end.
Lemma better_rk (a b : offer A) : f_better a b <->
  f_cost a < f_cost b \/ f_cost a = f_cost b /\
    (f_pos b < f_pos a \/ f_pos a = f_pos b /\ rk a < rk b).
Proof.
  unfold f_better, rk. destruct (f_rank a), (f_rank b);
    split; (intros [H|(H & [H1|(H1 & H2)])]; [left; exact H|right; split; [exact H|left; exact H1]|]);
    try lia; try (destruct H2; congruence);
    right; split; auto; right; repeat split; auto; try lia; congruence.
Qed.
Lemma better_trans (a b c : offer A) : f_better a b -> f_better b c -> f_better a c.
Proof. rewrite !better_rk. lia. Qed.
Lemma not_better_trans (a b c : offer A) : f_better a b -> ~ f_better c b -> f_better a c.
Proof. rewrite !better_rk. lia. Qed.
Lemma cons_inj {X} (a b : X) l k : a :: l = b :: k -> a = b /\ l = k.
Proof. intros H. injection H as -> ->. auto. Qed.
Lemma py_min_chosen (l : list (repair T A)) : forall x,
  f_chosen (map off (x :: l)) (off (py_min x l)).
Proof.
  induction l as [|y l IH]; intros x; cbn [py_min].
  { exists [], []. split; [reflexivity|]. split; intros ? []. }
  destruct (key_lt y x) eqn:K.
  - apply key_lt_better in K. destruct (IH y) as (l1 & l2 & H1 & H2 & H3).
    exists (off x :: l1), l2. cbn [map] in *. rewrite H1. split; [reflexivity|]. split; [|auto].
    intros z [<-|Hz]; auto.
    assert (D : off y = off (py_min y l) \/ f_better (off (py_min y l)) (off y)).
    { destruct l1 as [|z l1]; cbn in H1; apply cons_inj in H1 as [E1 _]; [left; auto|right].
      apply H2. rewrite E1. left. reflexivity. }
    destruct D as [<-|D]; auto. eapply better_trans; eauto.
  - assert (K' : ~ f_better (off y) (off x)) by (rewrite <- key_lt_better; congruence).
    destruct (IH x) as (l1 & l2 & H1 & H2 & H3). cbn [map] in *.
    destruct l1 as [|z l1]; cbn in H1; apply cons_inj in H1 as [E1 H1].
    + exists [], (off y :: l2). cbn [app]. rewrite <- E1, H1. split; [reflexivity|]. split; [intros ? []|].
      intros z [<-|Hz]; auto. rewrite E1. auto.
    + exists (z :: off y :: l1), l2. cbn [app]. rewrite H1, <- E1. split; [reflexivity|]. split; [|auto].
      intros w [<-|[<-|Hw]].
      * apply H2. rewrite E1. left. reflexivity.
      * eapply not_better_trans; [|exact K']. apply H2. left. auto.
      * apply H2. right. auto.
Qed.
Lemma chosen_unique (rs : list (offer A)) a b : f_chosen rs a -> f_chosen rs b -> a = b.
Proof.
  assert (IR : forall x : offer A, ~ f_better x x).
  { intros x. unfold f_better. intuition; try lia; congruence. }
  intros (l1 & l2 & -> & H2 & H3) (k1 & k2 & E & K2 & K3).
  revert k1 E K2. induction l1 as [|x l1 IH]; intros [|y k1] E K2; cbn in E; apply cons_inj in E as [E1 E2].
  - auto.
  - subst y. subst l2. exfalso. apply (H3 b); [apply in_or_app; right; left; auto|].
    apply K2. left. auto.
  - subst x. subst k2. exfalso. apply (K3 a); [apply in_or_app; right; left; auto|].
    apply H2. left. auto.
  - subst y. apply (IH (fun z Hz => H2 z (or_intror Hz)) k1 E2 (fun z Hz => K2 z (or_intror Hz))).
Qed.

Lemma unwrap_verdict (r : presult T A) rec u :
  unwrap r rec = u <-> verdict (pr_fmt r) rec (rab (pr_result r)) u.
Proof.
  unfold unwrap. destruct (pr_result r) as [o|e|rc]; cbn;
    [split; intros; subst; reflexivity|split; intros; subst; reflexivity|].
  destruct (rc_reps rc) as [|x l] eqn:Hl.
  - split.
    + intros <-. left. auto.
    + intros [[_ ->]|(r' & (l1 & l2 & H & _) & _)]; auto. destruct l1; discriminate.
  - cbn [map]. pose proof (py_min_chosen l x) as C. cbn [map] in C. split.
    + intros <-. right. exists (off (py_min x l)). split; auto.
    + intros [[H _]|(r' & H & ->)]; [discriminate|].
      rewrite (chosen_unique _ _ _ H C). destruct rec; reflexivity.
Qed.
End Unwrap.

Lemma parse_rec_iff {T V} (E : env T V) n A (g : gram T V A) s mi get fmt r :
  parse E n g s true mi get fmt = Ret r <->
  full E n g s 0 (init_ctx get) mi (Some mi) = Ret (pr_result r) /\ pr_fmt r = fmt.
Proof.
  unfold parse. destruct (full E n g s 0 (init_ctx get) mi (Some mi)) as [x|e|]; cbn; split.
  - intros H. injection H as <-. auto.
  - intros [H <-]. injection H as ->. destruct r; reflexivity.
  - discriminate.
  - intros [H _]. discriminate.
  - discriminate.
  - intros [H _]. discriminate.
Qed.

Section C44.
Context {T : Type} {V : nat -> Type} (E : env T V) {A : Type} (g : gram T V A).
Variables (s : list T) (get : loc -> list T -> nat -> loc) (locof : nat -> loc).
Hypotheses (HE : wf_env E) (Hg : wf g) (Hco : cohere get s locof) (Hl : lay_ok E g s locof).

Lemma rec_iff i c ins rem : i <= List.length s -> pos_Cok (T:=T) get locof i c ->
  forall o, (exists n, rabs (full E n g s i c ins rem) = Some o) <->
    rsem E s locof A g (ctx_mark c) i ins rem o.
Proof.
  destruct (lay_gok _ _ _ _ _ HE Hg Hl) as [G1 G2]. intros Hi Hc o. split.
  - intros [n H]. eapply (rec_sound E s get locof _ Hco (fun x => x) G2 n); eauto.
  - intros H. eapply (rec_complete E s get locof _ Hco (fun x => x) G2); eauto.
Qed.
End C44.

(** [parse(s, recover=True, max_insertions=mi)]: what unwrap shows, with or
    without recover=True, and which exceptions escape. *)
Theorem C44_recovery_semantics :
  forall T V (E : env T V) A (g : gram T V A) s mi get fmt locof,
  wf_env E -> wf g -> cohere get s locof -> lay_ok E g s locof ->
  let outcome := rsem E s locof A g 0 0 mi (Some mi) in
  (forall rec u,
     (exists n r, parse E n g s true mi get fmt = Ret r /\ unwrap r rec = u) <->
     (exists o, outcome o /\ verdict fmt rec o u)) /\
  (forall e, (exists n, parse E n g s true mi get fmt = Raise e) <-> outcome (RExn e)).
Proof.
  intros T V E A g s mi get fmt locof HE Hg Hco Hl outcome.
  pose proof (rec_iff E g s get locof HE Hg Hco Hl 0 (init_ctx get) mi (Some mi) ltac:(lia)
    (pos_init _ _)) as HR. cbn [ctx_mark init_ctx] in HR. fold outcome in HR.
  split.
  - intros rec u. split.
    + intros (n & r & H & Hu). apply parse_rec_iff in H as [H <-].
      exists (rab (pr_result r)). split; [|apply unwrap_verdict; auto].
      apply HR. exists n. rewrite H. reflexivity.
    + intros (o & H & Hv). apply HR in H as [n H].
      destruct (full E n g s 0 (init_ctx get) mi (Some mi)) as [x|e|] eqn:Hx; cbn in H; try discriminate.
      * injection H as <-. exists n, (ResultWrapper x fmt). split; [|apply unwrap_verdict; auto].
        apply parse_rec_iff. auto.
      * injection H as <-. contradiction.
  - intros e. rewrite <- HR. unfold parse. split; intros [n H]; exists n;
      destruct (full E n g s 0 (init_ctx get) mi (Some mi)) as [[x|x|x]|e'|]; cbn in *; try discriminate;
      injection H as ->; reflexivity.
Qed.
Print Assumptions C44_recovery_semantics.

(** the whole list of repairs, at any position, mark and allowance *)
Theorem C44_anywhere :
  forall T V (E : env T V) A (g : gram T V A) s get locof m i ins rem o,
  wf_env E -> wf g -> cohere get s locof -> lay_ok E g s locof -> i <= List.length s ->
  (exists n, rabs (full E n g s i (Ctx m (locof i) get) ins rem) = Some o) <->
  rsem E s locof A g m i ins rem o.
Proof.
  intros T V E A g s get locof m i ins rem o HE Hg Hco Hl Hi.
  apply (rec_iff E g s get locof HE Hg Hco Hl i (Ctx m (locof i) get)); auto.
  split; [reflexivity|right; exists i; auto].
Qed.
Print Assumptions C44_anywhere.

(** the outcome is unique *)
Theorem C44_deterministic :
  forall T V (E : env T V) A (g : gram T V A) s m i ins rem o o',
  wf_env E -> wf g -> i <= List.length s ->
  rsem E s default_locof A g m i ins rem o -> rsem E s default_locof A g m i ins rem o' -> o = o'.
Proof.
  intros T V E A g s m i ins rem o o' HE Hg Hi H H'.
  assert (Hl : lay_ok E g s default_locof) by (left; apply default_exact).
  apply (C44_anywhere T V E A g s _ default_locof m i ins rem _ HE Hg (default_cohere s) Hl Hi) in H as [n H].
  apply (C44_anywhere T V E A g s _ default_locof m i ins rem _ HE Hg (default_cohere s) Hl Hi) in H' as [n' H'].
  assert (K : full E n g s i (Ctx m (default_locof i) default_get_loc) ins rem =
              full E n' g s i (Ctx m (default_locof i) default_get_loc) ins rem).
  { apply full_agree; intros K; rewrite K in *; discriminate. }
  rewrite K in H. congruence.
Qed.
Print Assumptions C44_deterministic.

(** "a" read by the grammar 'a' ('b' | 'c') end-of-file: both alternatives are
    repaired, but the insertion of 'c' is not offered because it is automatic;
    the insertion of 'b' is, expecting both. *)
Definition c44_g : ex_gram char := seqr (ex_sym "a") (GAlt (ex_sym "b") (ex_sym "c")).
Definition c44_b : offer char :=
  {| f_cost := 1; f_rank := None; f_left := 4;
     f_ops := [{| op_op := Insert "'b'"; op_loc := Loc 1 0 0;
                  op_exp := ["'b'"; "'c'"]%string; op_con := true |}];
     f_val := ex_ch "b"; f_pos := 1; f_exp := []; f_con := true |}.
Example C44_case :
  wf c44_g /\ wf_env ex_E /\ lay_ok ex_E c44_g (ex_str "a") default_locof /\
  rsem ex_E (ex_str "a") default_locof _ c44_g 0 0 5 (Some 5%Z)
    (ROffer None true (Loc 1 0 0) ["'b'"; "'c'"]%string [c44_b]) /\
  (exists n r, parse ex_E n c44_g (ex_str "a") true 5 default_get_loc default_fmt_loc = Ret r /\
     unwrap r false =
       Raises [ErrorItem (Loc 1 0 0) "1" ["'b'"; "'c'"]%string (Some (Insert "'b'"))]).
Proof.
  split; [unfold wf; solve_gall|]. split; [exact ex_wf_E|]. split; [left; apply default_exact|]. split.
  - assert (M : forall x, sym_miss N.eqb x (ex_str "a") 1) by (intros x t H; discriminate).
    assert (NH : forall x, no_hit (ex_str "a") (sym_miss N.eqb x (ex_str "a")) 1).
    { intros x k Hk. cbn in Hk. lia. }
    apply (rs_seq ex_E (ex_str "a") default_locof _ _ _ (ex_sym "a") (GAlt (ex_sym "b") (ex_sym "c"))
      (fun _ r => r) 0 0 5 (Some 5%Z) (ex_ch "a") 1 []
      (r_choice (default_locof 1) ["'b'"; "'c'"]%string
        (ROffer None false (default_locof 1) ["'b'"%string]
           [f_insert None 5 (ex_ch "b") 1 (default_locof 1) "'b'" ["'b'"%string]])
        (ROffer None false (default_locof 1) ["'c'"%string]
           [f_insert None 5 (ex_ch "c") 1 (default_locof 1) "'c'" ["'c'"%string]]))).
    + apply (rs_sym ex_E (ex_str "a") default_locof N.eqb (ex_ch "a") _ (ex_ch "a") 0 0). split; reflexivity.
    + apply (rs_alt_recover ex_E (ex_str "a") default_locof _ (ex_sym "b") (ex_sym "c") 0 1 5 5
        (default_locof 1) ["'b'"%string] (default_locof 1) ["'c'"%string]).
      * apply rs_sym_fail. apply M.
      * apply rs_sym_fail. apply M.
      * apply (rs_sym_none ex_E (ex_str "a") default_locof N.eqb (ex_ch "b") "'b'" 0 1 5 5 (M _) (NH _)).
      * apply (rs_sym_none ex_E (ex_str "a") default_locof N.eqb (ex_ch "c") "'c'" 0 1 5 5 (M _) (NH _)).
  - exists 9. eexists. split; vm_compute; reflexivity.
Qed.
