(** C19 label, C20 attempt, C37 recover_with, C38 recover, C41 primitives. *)
From Verif Require Export SingleSpec PropsChoice.

Section Single.
Context {T : Type} {V : nat -> Type}.
Variable E : env T V.
Notation gram := (gram T V).
Implicit Types s : list T.

(** one call of [p] and a conversion [h] of its outcome *)
Lemma runs_one {A B} (p : gram A) (g : gram B) h s i c :
  (forall n, fast E (S n) g s i c = obind (fast E n p s i c) h) ->
  (forall r, runs E g s i c r <-> exists r0, runs E p s i c r0 /\ h r0 = Ret r) /\
  (forall x, raises E g s i c x <-> raises E p s i c x \/ exists r0, runs E p s i c r0 /\ h r0 = Raise x).
Proof.
  intros H. split.
  - intros r. split.
    + intros [[|n] K]; [discriminate|]. rewrite H in K. apply obind_ret in K as (r0 & K1 & K2).
      exists r0. split; [exists n; auto|auto].
    + intros (r0 & [n K] & K2). exists (S n). rewrite H, K. exact K2.
  - intros x. split.
    + intros [[|n] K]; [discriminate|]. rewrite H in K. destruct (fast E n p s i c) as [r0|y|] eqn:Kp; simpl in K; try discriminate.
      * right. exists r0. split; [exists n; auto|auto].
      * left. exists n. congruence.
    + intros [[n K]|(r0 & [n K] & K2)]; exists (S n); rewrite H, K; auto.
Qed.
Lemma recovers_one {A B} (p : gram A) (g : gram B) h s i c ins rem rem' :
  (forall n, full E (S n) g s i c ins rem' = obind (full E n p s i c ins rem) h) ->
  (forall r, recovers E g s i c ins rem' r <-> exists r0, recovers E p s i c ins rem r0 /\ h r0 = Ret r) /\
  (forall x, raises_rec E g s i c ins rem' x <->
     raises_rec E p s i c ins rem x \/ exists r0, recovers E p s i c ins rem r0 /\ h r0 = Raise x).
Proof.
  intros H. split.
  - intros r. split.
    + intros [[|n] K]; [discriminate|]. rewrite H in K. apply obind_ret in K as (r0 & K1 & K2).
      exists r0. split; [exists n; auto|auto].
    + intros (r0 & [n K] & K2). exists (S n). rewrite H, K. exact K2.
  - intros x. split.
    + intros [[|n] K]; [discriminate|]. rewrite H in K. destruct (full E n p s i c ins rem) as [r0|y|] eqn:Kp; simpl in K; try discriminate.
      * right. exists r0. split; [exists n; auto|auto].
      * left. exists n. congruence.
    + intros [[n K]|(r0 & [n K] & K2)]; exists (S n); rewrite H, K; auto.
Qed.
Lemma obind_Ret {A} (x : out A) : x = obind x Ret.
Proof. destruct x; reflexivity. Qed.

Lemma ops_renamed x ops : Forall2 (op_renamed x) ops (ops_set_expected ops [x]).
Proof.
  unfold ops_set_expected. induction ops as [|o ops IH]; simpl; constructor; auto.
  unfold op_renamed, rename_to. destruct (op_con o) eqn:Ho; simpl; rewrite ?Ho; auto.
Qed.
Lemma res_renamed {A} x (r : res T A) : renamed x r (res_set_exp [x] r).
Proof.
  destruct r as [o|e|rc]; simpl.
  - unfold ok_set_exp, rename_to. destruct (ok_con o) eqn:Ho; simpl; rewrite ?Ho; auto.
  - unfold er_set_exp, rename_to. destruct (er_con e) eqn:Ho; simpl; rewrite ?Ho; auto.
  - unfold rename_to. repeat split. induction (rc_reps rc) as [|r l IH]; simpl; constructor; auto.
    unfold rep_renamed, rename_to; simpl. repeat split; auto. apply ops_renamed.
Qed.
Lemma op_renamed_fun x o o1 o2 : op_renamed x o o1 -> op_renamed x o o2 -> o1 = o2.
Proof.
  intros (A1 & A2 & A3 & A4) (B1 & B2 & B3 & B4). destruct o1, o2; simpl in *; congruence.
Qed.
Lemma Forall2_fun {X Y} (R : X -> Y -> Prop) (HR : forall x y y', R x y -> R x y' -> y = y') l l1 l2 :
  Forall2 R l l1 -> Forall2 R l l2 -> l1 = l2.
Proof.
  intros H. revert l2. induction H as [|x y l l1 H HF IH]; intros l2 K; inversion K; subst; auto.
  f_equal; eauto.
Qed.
Lemma renamed_fun {A} x (r r1 r2 : res T A) : renamed x r r1 -> renamed x r r2 -> r1 = r2.
Proof.
  destruct r as [o|e|rc], r1 as [o1|e1|rc1]; simpl; try tauto; destruct r2 as [o2|e2|rc2]; simpl; try tauto.
  - intros (A1 & A2 & A3 & A4 & A5) (B1 & B2 & B3 & B4 & B5). destruct o1, o2; simpl in *; congruence.
  - intros (A1 & A2 & A3) (B1 & B2 & B3). destruct e1, e2; simpl in *; congruence.
  - intros (A1 & A2 & A3 & A4 & A5) (B1 & B2 & B3 & B4 & B5).
    assert (rc_reps rc1 = rc_reps rc2).
    { eapply Forall2_fun; eauto. intros r y y' (C1 & C2 & C3 & C4 & C5 & C6 & C7 & C8 & C9)
        (D1 & D2 & D3 & D4 & D5 & D6 & D7 & D8 & D9).
      assert (r_ops y = r_ops y') by (eapply Forall2_fun; [apply op_renamed_fun| |]; eauto).
      destruct y, y'; simpl in *; congruence. }
    destruct rc1, rc2; simpl in *; congruence.
Qed.

(** ** C19 *)
Theorem C19_label_plain A (p : gram A) x s i c :
  (forall r, runs E (GLabel p x) s i c r <->
     exists r0, runs E p s i c r0 /\ renamed x (sres_res r0) (sres_res r)) /\
  (forall e, raises E (GLabel p x) s i c e <-> raises E p s i c e).
Proof.
  destruct (runs_one p (GLabel p x) (fun r => Ret (sres_set_exp [x] r)) s i c) as [H1 H2]; [reflexivity|].
  split.
  - intros r. rewrite H1. split; intros (r0 & Hr & H); exists r0; split; auto.
    + injection H as <-. replace (sres_res (sres_set_exp [x] r0)) with (res_set_exp [x] (sres_res r0))
        by (destruct r0; reflexivity). apply res_renamed.
    + f_equal. assert (K : sres_res (sres_set_exp [x] r0) = sres_res r).
      { eapply renamed_fun; [|exact H]. replace (sres_res (sres_set_exp [x] r0)) with (res_set_exp [x] (sres_res r0))
          by (destruct r0; reflexivity). apply res_renamed. }
      destruct (sres_set_exp [x] r0), r; simpl in K; congruence.
  - intros e. rewrite H2. split; [intros [K|(r0 & _ & K)]; [auto|discriminate]|auto].
Qed.
Theorem C19_label_recovery A (p : gram A) x s i c ins rem :
  (forall r, recovers E (GLabel p x) s i c ins rem r <->
     exists r0, recovers E p s i c ins rem r0 /\ renamed x r0 r) /\
  (forall e, raises_rec E (GLabel p x) s i c ins rem e <-> raises_rec E p s i c ins rem e).
Proof.
  destruct (recovers_one p (GLabel p x) (fun r => Ret (res_set_exp [x] r)) s i c ins rem rem) as [H1 H2]; [reflexivity|].
  split.
  - intros r. rewrite H1. split; intros (r0 & Hr & H); exists r0; split; auto.
    + injection H as <-. apply res_renamed.
    + f_equal. eapply renamed_fun; [apply res_renamed|exact H].
  - intros e. rewrite H2. split; [intros [K|(r0 & _ & K)]; [auto|discriminate]|auto].
Qed.
Lemma res_set_exp_2 {A} x y (r : res T A) : res_set_exp y (res_set_exp x r) = res_set_exp y r.
Proof.
  destruct r as [[v j c e []]|[l e []]|rc]; try reflexivity. simpl. rewrite rec_set_exp_2. reflexivity.
Qed.
Lemma sres_set_exp_2 {A} x y (r : sres T A) : sres_set_exp y (sres_set_exp x r) = sres_set_exp y r.
Proof. destruct r as [[v j c e []]|[l e []]]; reflexivity. Qed.
Theorem C19_outermost_label_wins A (p : gram A) x y : same E (GLabel (GLabel p x) y) (GLabel p y).
Proof.
  assert (F : forall n s pos c, fast E (S (S n)) (GLabel (GLabel p x) y) s pos c = fast E (S n) (GLabel p y) s pos c).
  { intros. cbn [fast]. unfold label_fast. destruct (fast E n p s pos c); simpl; auto. rewrite sres_set_exp_2. reflexivity. }
  assert (G : forall n s pos c ins rem, full E (S (S n)) (GLabel (GLabel p x) y) s pos c ins rem =
     full E (S n) (GLabel p y) s pos c ins rem).
  { intros. cbn [full]. unfold label_full. destruct (full E n p s pos c ins rem); simpl; auto. rewrite res_set_exp_2. reflexivity. }
  apply same_of_lef; intros n.
  - exists (S n). intros. rewrite <- F. apply fast_lef; lia.
  - exists (S (S n)). intros. rewrite F. apply fast_lef; lia.
  - exists (S n). intros. rewrite <- G. apply full_lef; lia.
  - exists (S (S n)). intros. rewrite G. apply full_lef; lia.
Qed.

(** ** C20 *)
Theorem C20_attempt_plain A (p : gram A) s i c :
  (forall r, runs E (GAttempt p) s i c r <->
     (exists o, runs E p s i c (SOk o) /\ r = SOk o) \/
     (exists e, runs E p s i c (SErr e) /\ r = SErr (Err (er_loc e) (er_exp e) false))) /\
  (forall x, raises E (GAttempt p) s i c x <-> raises E p s i c x).
Proof.
  destruct (runs_one p (GAttempt p) (fun r => match r with
    | SErr e => Ret (SErr (Err (er_loc e) (er_exp e) false)) | SOk o => Ret (SOk o) end) s i c) as [H1 H2]; [reflexivity|].
  split.
  - intros r. rewrite H1. split.
    + intros ([o|e] & Hr & H); injection H as <-; eauto.
    + intros [(o & Hr & ->)|(e & Hr & ->)]; eexists; split; eauto; reflexivity.
  - intros x. rewrite H2. split; [|auto]. intros [K|([o|e] & _ & K)]; [auto|discriminate|discriminate].
Qed.
(** [p.attempt() | q] tries [q] whenever [p] fails *)
Theorem C20_attempt_choice A (p q : gram A) s i c e :
  runs E p s i c (SErr e) ->
  (forall r, runs E (GAlt (GAttempt p) q) s i c r <->
     exists rq, runs E q s i c rq /\ r = after_failure (Err (er_loc e) (er_exp e) false) rq) /\
  (forall x, raises E (GAlt (GAttempt p) q) s i c x <-> raises E q s i c x).
Proof.
  intros Hp.
  assert (Ha : runs E (GAttempt p) s i c (SErr (Err (er_loc e) (er_exp e) false))).
  { apply C20_attempt_plain. right. exists e. auto. }
  split.
  - intros r. rewrite C14_choice_committed. split.
    + intros [(o & H & _)|[(e' & H & He & _)|(e' & rq & H & He & Hq & ->)]];
        pose proof (runs_det _ _ _ _ _ _ _ Ha H) as K; try discriminate; injection K as <-; [discriminate|eauto].
    + intros (rq & Hq & ->). right. right. eexists _, rq. split; [exact Ha|]. auto.
  - intros x. rewrite C14_choice_exceptions. split.
    + intros [H|(e' & _ & _ & H)]; auto. destruct (runs_raises _ _ _ _ _ _ _ Ha H).
    + intros H. right. eexists. split; [exact Ha|]. auto.
Qed.
(** in recovery mode: the plain run where recovery must not start, [p]
    otherwise *)
Theorem C20_attempt_recovery A (p : gram A) s i c ins m r :
  (recovers E (GAttempt p) s i c ins (Some m) r <-> recovers E p s i c ins (Some m) r) /\
  (recovers E (GAttempt p) s i c ins None r <-> exists r0, runs E (GAttempt p) s i c r0 /\ r = sres_res r0).
Proof.
  split.
  - destruct (recovers_one p (GAttempt p) (fun r => Ret r) s i c ins (Some m) (Some m)) as [H _].
    + intros n. apply obind_Ret.
    + rewrite H. split; [intros (r0 & K & Hr); congruence|intros K; exists r; auto].
  - split.
    + intros [[|n] H]; [discriminate|]. cbn [full] in H. unfold attempt_full in H.
      apply obind_ret in H as (r0 & H0 & H). destruct r0 as [o|e]; injection H as <-.
      * exists (SOk o). split; auto. exists (S n). cbn [fast]. unfold attempt_fast. rewrite H0. reflexivity.
      * eexists (SErr _). split; [|reflexivity]. exists (S n). cbn [fast]. unfold attempt_fast. rewrite H0. reflexivity.
    + intros (r0 & [[|n] H] & ->); [discriminate|]. exists (S n). cbn [fast] in H. unfold attempt_fast in H.
      apply obind_ret in H as (r1 & H1 & H). cbn [full]. unfold attempt_full. rewrite H1. cbn [obind].
      destruct r1; injection H as <-; reflexivity.
Qed.
Theorem C20_attempt_idempotent A (p : gram A) : same E (GAttempt (GAttempt p)) (GAttempt p).
Proof.
  assert (F : forall n s pos c, fast E (S (S n)) (GAttempt (GAttempt p)) s pos c = fast E (S n) (GAttempt p) s pos c).
  { intros. cbn [fast]. unfold attempt_fast. destruct (fast E n p s pos c) as [[o|e]|e|]; reflexivity. }
  assert (G : forall n s pos c ins rem, full E (S (S n)) (GAttempt (GAttempt p)) s pos c ins rem =
     full E (S n) (GAttempt p) s pos c ins rem).
  { intros. cbn [full]. unfold attempt_full. destruct rem; auto.
    cbn [fast]. unfold attempt_fast. destruct (fast E n p s pos c) as [[o|e]|e|]; reflexivity. }
  apply same_of_lef; intros n.
  - exists (S n). intros. rewrite <- F. apply fast_lef; lia.
  - exists (S (S n)). intros. rewrite F. apply fast_lef; lia.
  - exists (S n). intros. rewrite <- G. apply full_lef; lia.
  - exists (S (S n)). intros. rewrite G. apply full_lef; lia.
Qed.

(** ** C38 *)
Lemma marked_of {A} (r : res T A) r' :
  match r with
  | RRec r => Ret (RRec (Recd (map rep_set_prio (rc_reps r)) (rc_min r) (rc_loc r) (rc_exp r) (rc_con r)))
  | _ => Ret r
  end = Ret r' <-> marked r r'.
Proof.
  destruct r as [o|e|rc].
  - split; [intros H; injection H as <-; reflexivity|]. destruct r'; simpl; try tauto. intros ->. reflexivity.
  - split; [intros H; injection H as <-; reflexivity|]. destruct r'; simpl; try tauto. intros ->. reflexivity.
  - split.
    + intros H; injection H as <-. simpl. repeat split.
      induction (rc_reps rc) as [|r l IH]; simpl; constructor; auto. unfold marked_rep; simpl; repeat split.
    + destruct r' as [o|e|rc']; simpl; try tauto. intros (H1 & H2 & H3 & H4 & H5). do 2 f_equal.
      assert (K : map rep_set_prio (rc_reps rc) = rc_reps rc').
      { clear - H5. induction H5 as [|r r' l l' H HF IH]; simpl; auto. f_equal; auto.
        destruct H as (A1 & A2 & A3 & A4 & A5 & A6 & A7 & A8 & A9).
        unfold rep_set_prio. destruct r'; simpl in *. congruence. }
      rewrite K. destruct rc'; simpl in *; congruence.
Qed.
Theorem C38_recover_only_priorities A (p : gram A) s i c ins rem :
  (forall r, recovers E (GRecover p) s i c ins rem r <->
     exists r0, recovers E p s i c ins rem r0 /\ marked r0 r) /\
  (forall x, raises_rec E (GRecover p) s i c ins rem x <-> raises_rec E p s i c ins rem x).
Proof.
  destruct (recovers_one p (GRecover p) (fun r => match r with
    | RRec r => Ret (RRec (Recd (map rep_set_prio (rc_reps r)) (rc_min r) (rc_loc r) (rc_exp r) (rc_con r)))
    | _ => Ret r end) s i c ins rem rem) as [H1 H2]; [reflexivity|].
  split.
  - intros r. rewrite H1. split; intros (r0 & Hr & H); exists r0; split; auto; apply (marked_of r0 r); auto.
  - intros x. rewrite H2. split; [|auto]. intros [K|([o|e|rc] & _ & K)]; [auto|discriminate..].
Qed.
Theorem C38_recover_plain A (p : gram A) s i c :
  (forall r, runs E (GRecover p) s i c r <-> runs E p s i c r) /\
  (forall x, raises E (GRecover p) s i c x <-> raises E p s i c x).
Proof.
  destruct (runs_one p (GRecover p) Ret s i c) as [H1 H2]; [intros; apply obind_Ret|].
  split.
  - intros r. rewrite H1. split; [intros (r0 & K & Hr); congruence|eauto].
  - intros x. rewrite H2. split; [intros [K|(r0 & _ & K)]; [auto|discriminate]|auto].
Qed.
Theorem C38_recover_idempotent A (p : gram A) : same E (GRecover (GRecover p)) (GRecover p).
Proof.
  assert (F : forall n s pos c, fast E (S (S n)) (GRecover (GRecover p)) s pos c = fast E (S n) (GRecover p) s pos c)
    by reflexivity.
  assert (G : forall n s pos c ins rem, full E (S (S n)) (GRecover (GRecover p)) s pos c ins rem =
     full E (S n) (GRecover p) s pos c ins rem).
  { intros. cbn [full]. unfold recover_full. destruct (full E n p s pos c ins rem) as [[o|e|rc]|e|]; simpl; auto.
    do 3 f_equal. rewrite map_map. apply map_ext. intros r. unfold rep_set_prio; simpl. destruct (r_prio r); reflexivity. }
  apply same_of_lef; intros n.
  - exists (S n). intros. rewrite <- F. apply fast_lef; lia.
  - exists (S (S n)). intros. rewrite F. apply fast_lef; lia.
  - exists (S n). intros. rewrite <- G. apply full_lef; lia.
  - exists (S (S n)). intros. rewrite G. apply full_lef; lia.
Qed.

(** ** C37 *)
Theorem C37_recover_with_plain A (p : gram A) fn lab x l s i c :
  (forall r, runs E (GRecoverWith p x l) s i c r <-> runs E p s i c r) /\
  (forall y, raises E (GRecoverWith p x l) s i c y <-> raises E p s i c y) /\
  (forall r, runs E (GRecoverWithFn p fn lab) s i c r <-> runs E p s i c r) /\
  (forall y, raises E (GRecoverWithFn p fn lab) s i c y <-> raises E p s i c y).
Proof.
  destruct (runs_one p (GRecoverWith p x l) Ret s i c) as [H1 H2]; [intros; apply obind_Ret|].
  destruct (runs_one p (GRecoverWithFn p fn lab) Ret s i c) as [K1 K2]; [intros; apply obind_Ret|].
  split; [|split; [|split]]; intros r; rewrite ?H1, ?H2, ?K1, ?K2.
  - split; [intros (r0 & K & Hr); congruence|eauto].
  - split; [intros [K|(r0 & _ & K)]; [auto|discriminate]|auto].
  - split; [intros (r0 & K & Hr); congruence|eauto].
  - split; [intros [K|(r0 & _ & K)]; [auto|discriminate]|auto].
Qed.
(** where recovery must not start, the outcome is [p]'s *)
Theorem C37_recover_with_off A (p : gram A) fn lab x l s i c ins :
  (forall r, recovers E (GRecoverWith p x l) s i c ins None r <-> recovers E p s i c ins None r) /\
  (forall y, raises_rec E (GRecoverWith p x l) s i c ins None y <-> raises_rec E p s i c ins None y) /\
  (forall r, recovers E (GRecoverWithFn p fn lab) s i c ins None r <-> recovers E p s i c ins None r) /\
  (forall y, raises_rec E (GRecoverWithFn p fn lab) s i c ins None y <-> raises_rec E p s i c ins None y).
Proof.
  destruct (recovers_one p (GRecoverWith p x l) Ret s i c ins None None) as [H1 H2]; [intros; apply obind_Ret|].
  destruct (recovers_one p (GRecoverWithFn p fn lab) Ret s i c ins None None) as [K1 K2]; [intros; apply obind_Ret|].
  split; [|split; [|split]]; intros r; rewrite ?H1, ?H2, ?K1, ?K2.
  - split; [intros (r0 & K & Hr); congruence|eauto].
  - split; [intros [K|(r0 & _ & K)]; [auto|discriminate]|auto].
  - split; [intros (r0 & K & Hr); congruence|eauto].
  - split; [intros [K|(r0 & _ & K)]; [auto|discriminate]|auto].
Qed.
(** [p.recover_with_fn(fn)] where recovery may start: [p]'s outcome [r0] if [p]
    succeeded, consumed input or no insertion is left; otherwise [fn] is called
    and the insertion of its value comes first, then all repairs of [p] *)
Theorem C37_recover_with_fn A (p : gram A) fn lab s i c ins m :
  (forall r, recovers E (GRecoverWithFn p fn lab) s i c ins (Some m) r <->
     exists r0, recovers E p s i c ins (Some m) r0 /\
       ((succeeded r0 \/ result_con r0 = true \/ m = 0%Z) /\ r = r0 \/
        (~ succeeded r0 /\ result_con r0 = false /\ m <> 0%Z) /\
        exists x, fn s i = Ret x /\
        r = RRec {| rc_reps := user_insertion x (lab x) i c (get_loc c s i) (result_exp r0) m :: offers r0;
                    rc_min := match r0 with RRec rc => rc_min rc | _ => None end;
                    rc_loc := get_loc c s i;
                    rc_exp := match r0 with RRec rc => rc_exp rc | _ => [] end;
                    rc_con := false |})) /\
  (forall y, raises_rec E (GRecoverWithFn p fn lab) s i c ins (Some m) y <->
     raises_rec E p s i c ins (Some m) y \/
     exists r0, recovers E p s i c ins (Some m) r0 /\
       (~ succeeded r0 /\ result_con r0 = false /\ m <> 0%Z) /\ fn s i = Raise y).
Proof.
  destruct (recovers_one p (GRecoverWithFn p fn lab) (fun r =>
        match r with
        | ROk _ => Ret r
        | _ =>
            if res_con r then Ret r
            else if Z.eqb m 0 then Ret r
            else
              x <- fn s i ;;
              let l := get_loc c s i in
              let rep := make_user_insert m x i c l (lab x) (res_exp r) in
              match r with
              | RRec r =>
                  Ret (RRec (Recd (rep :: rc_reps r) (rc_min r) l (rc_exp r) false))
              | _ => Ret (RRec (Recd [rep] None l [] false))
              end
        end) s i c ins (Some m) (Some m)) as [H1 H2]; [reflexivity|].
  split.
  - intros r. rewrite H1. clear H1 H2. split; intros (r0 & Hr & H); exists r0; split; auto.
    + destruct r0 as [o|e|rc]; [injection H as <-; left; simpl; auto| |].
      all: destruct (res_con _) eqn:Hc; [injection H as <-; left; simpl in *; auto|].
      all: destruct (Z.eqb_spec m 0) as [Hm|Hm]; [injection H as <-; left; simpl in *; auto|].
      all: apply obind_ret in H as [x [Hx H]]; injection H as <-; right; split; [simpl in *; auto|];
           exists x; split; [exact Hx|reflexivity].
    + destruct H as [[Hs ->]|[(Hs & Hc & Hm) (x & Hx & ->)]].
      * destruct r0 as [o|e|rc]; [reflexivity| |]; simpl in *.
        all: destruct Hs as [[]|[-> | ->]]; [reflexivity|]; rewrite Z.eqb_refl; destruct (_ : bool); reflexivity.
      * apply Z.eqb_neq in Hm. destruct r0 as [o|e|rc]; simpl in *; [tauto| |];
          rewrite Hc, Hm, Hx; reflexivity.
  - intros y. rewrite H2. clear H1 H2. split; (intros [K|(r0 & Hr & H)]; [auto|right; exists r0; split; auto]).
    + destruct r0 as [o|e|rc]; [discriminate| |].
      all: destruct (res_con _) eqn:Hc; [discriminate|].
      all: destruct (Z.eqb_spec m 0) as [Hm|Hm]; [discriminate|].
      all: destruct (fn s i); try discriminate; injection H as <-; simpl in *; auto.
    + destruct H as [(Hs & Hc & Hm) Hx]. apply Z.eqb_neq in Hm.
      destruct r0 as [o|e|rc]; simpl in *; [tauto| |]; rewrite Hc, Hm, Hx; reflexivity.
Qed.
Theorem C37_recover_with A (p : gram A) x l s i c ins m :
  (forall r, recovers E (GRecoverWith p x l) s i c ins (Some m) r <->
     exists r0, recovers E p s i c ins (Some m) r0 /\
       ((succeeded r0 \/ result_con r0 = true \/ m = 0%Z) /\ r = r0 \/
        (~ succeeded r0 /\ result_con r0 = false /\ m <> 0%Z) /\
        r = RRec {| rc_reps := user_insertion x l i c (get_loc c s i) (result_exp r0) m :: offers r0;
                    rc_min := match r0 with RRec rc => rc_min rc | _ => None end;
                    rc_loc := get_loc c s i;
                    rc_exp := match r0 with RRec rc => rc_exp rc | _ => [] end;
                    rc_con := false |})) /\
  (forall y, raises_rec E (GRecoverWith p x l) s i c ins (Some m) y <->
     raises_rec E p s i c ins (Some m) y).
Proof.
  assert (S : forall n, full E n (GRecoverWith p x l) s i c ins (Some m) =
    full E n (GRecoverWithFn p (fun _ _ => Ret x) (fun _ => l)) s i c ins (Some m))
    by (intros [|n]; reflexivity).
  destruct (C37_recover_with_fn A p (fun _ _ => Ret x) (fun _ => l) s i c ins m) as [H1 H2].
  split.
  - intros r. transitivity (recovers E (GRecoverWithFn p (fun _ _ => Ret x) (fun _ => l)) s i c ins (Some m) r).
    { unfold recovers. split; intros [n K]; exists n; rewrite ?S in *; congruence. }
    rewrite H1. split; intros (r0 & Hr & H); exists r0; (split; [exact Hr|]).
    + destruct H as [H|[H (x' & Hx & ->)]]; [left; exact H|right]. injection Hx as <-. split; [exact H|reflexivity].
    + destruct H as [H|[H ->]]; [left; exact H|right]. split; [exact H|]. exists x. split; reflexivity.
  - intros y. transitivity (raises_rec E (GRecoverWithFn p (fun _ _ => Ret x) (fun _ => l)) s i c ins (Some m) y).
    { unfold raises_rec. split; intros [n K]; exists n; rewrite ?S in *; congruence. }
    rewrite H2. split; [intros [K|(r0 & _ & _ & K)]; [auto|discriminate]|auto].
Qed.

(** ** C41 *)
Lemma skip_search_skips {X Y A} s i (probe : nat -> out (option X)) (hit : nat -> Y -> Prop) (miss : nat -> Prop)
    (f : X -> Y) (mk : nat -> Y -> repair T A) o :
  (forall k x, probe k = Ret (Some x) -> hit k (f x)) -> (forall k, probe k = Ret None -> miss k) ->
  skip_search s i probe = Ret o ->
  skips s hit miss i mk (match o with Some (k, x) => [mk k (f x)] | None => [] end).
Proof.
  intros H1 H2 H. destruct o as [[k x]|].
  - apply skip_search_found in H as (Hk & Hx & Hm). left. exists k, (f x). split; auto. split; auto.
  - right. split; auto. intros j Hj. apply H2. eapply skip_search_none; eauto.
Qed.
Lemma lit_at_starts teq x s k : starts_with teq x s k = true <-> lit_at s teq x k.
Proof.
  unfold starts_with, lit_at.
  assert (G : forall l, is_prefix teq x l = true <->
    forall d a, nth_error x d = Some a -> exists b, nth_error l d = Some b /\ teq b a = true).
  { induction x as [|a x IH]; intros l; simpl.
    - split; auto. intros _ [|d] a; discriminate.
    - destruct l as [|b l].
      + split; [discriminate|]. intros H. destruct (H 0 a eq_refl) as (b & K & _). discriminate.
      + rewrite andb_true_iff, IH. split.
        * intros [Hb H] [|d] a' Ha; simpl in *; [injection Ha as <-; eauto|eauto].
        * intros H. split.
          -- destruct (H 0 a eq_refl) as (b' & K & Hb). injection K as <-. exact Hb.
          -- intros d a' Ha. apply (H (S d) a'). exact Ha. }
  rewrite G. assert (N : forall d, nth_error (skipn k s) d = nth_error s (k + d)).
  { intros d. revert s. induction k as [|k IH]; intros s; simpl; auto. destruct s; simpl; auto. destruct d; auto. }
  split; intros H d a Ha; destruct (H d a Ha) as (b & Hb & K); exists b; rewrite ?N in *; auto.
Qed.
Lemma starts_miss teq x s k : starts_with teq x s k = false <-> ~ lit_at s teq x k.
Proof. rewrite <- lit_at_starts. destruct (starts_with teq x s k); split; intros; congruence. Qed.

(** what a primitive with label list [xs] returns when it does not match at [i]
    and may recover: an [RRec] with the repairs [l] at the current location *)
Definition recovered_here {A} (l : list (repair T A)) (lc : loc) (xs : list string) (r : res T A) : Prop :=
  exists mp, r = RRec (Recd l mp lc xs false).
Definition failed_here {A} (lc : loc) (xs : list string) (r : res T A) : Prop :=
  r = RErr (Err lc xs false).

(** [sym]: matches, or without recovery fails, or offers the insertion iff the
    budget allows it and the skip to the nearest equal token iff there is one;
    it always returns *)
Theorem C41_sym teq x l s i c ins rem :
  exists r, recovers E (GSym teq x l) s i c ins rem r /\
  ((exists t, sym_hit s teq x i t /\ r = ROk (Ok t (i + 1) c [] true)) \/
   sym_miss s teq x i /\
   match rem with
   | None => failed_here (get_loc c s i) [l] r
   | Some m => exists sk,
       skips s (sym_hit s teq x) (sym_miss s teq x) i
         (fun k t => skipping t (k - i) (k + 1) (update_loc c s (k + 1)) (get_loc c s i) [l] ins true) sk /\
       recovered_here ((if Z.eqb m 0 then [] else [auto_insertion x l i c (get_loc c s i) m]) ++ sk)
         (get_loc c s i) [l] r
   end).
Proof.
  assert (P1 : forall k t, probe_sym teq x s k = Ret (Some t) -> sym_hit s teq x k t).
  { unfold probe_sym, sym_hit. intros k t. destruct (nth_error s k) as [t'|]; [|discriminate].
    destruct (teq t' x) eqn:Ht; intros H; [injection H as <-; auto|discriminate]. }
  assert (P2 : forall k, probe_sym teq x s k = Ret None -> sym_miss s teq x k).
  { unfold probe_sym, sym_miss. intros k H t Ht. rewrite Ht in H. destruct (teq t x); [discriminate|auto]. }
  assert (P3 : forall k, exists o, probe_sym teq x s k = Ret o).
  { unfold probe_sym. intros k. destruct (nth_error s k); eauto. }
  assert (P4 : exists o, skip_search s i (probe_sym teq x s) = Ret o).
  { unfold skip_search. generalize (List.length s - S i). intros n. generalize (S i). induction n as [|n IH]; intros j; simpl; [eauto|].
    destruct (P3 j) as [[t|] Ho]; rewrite Ho; simpl; eauto. }
  unfold recovers.
  destruct (P3 i) as [[t|] Ho].
  - exists (ROk (Ok t (i + 1) c [] true)). split; [exists 1; simpl; unfold sym_full; rewrite Ho; reflexivity|].
    left. exists t. auto.
  - destruct rem as [m|].
    + destruct P4 as [o Hs].
      pose proof (skip_search_skips s i _ (sym_hit s teq x) (sym_miss s teq x) (fun t => t)
       (fun k t => skipping t (k - i) (k + 1) (update_loc c s (k + 1)) (get_loc c s i) [l] ins true) o P1 P2 Hs) as K.
      destruct o as [[k t]|]; eexists; (split; [exists 1; simpl; unfold sym_full; rewrite Ho; simpl; rewrite Hs; reflexivity|]);
        right; (split; [auto|]); eexists; (split; [exact K|]); eexists; [reflexivity|rewrite app_nil_r; reflexivity].
    + eexists; (split; [exists 1; simpl; unfold sym_full; rewrite Ho; reflexivity|]). right. split; [auto|reflexivity].
Qed.
Theorem C41_literal teq x l s i c ins rem :
  exists r, recovers E (GLiteral teq x l) s i c ins rem r /\
  (lit_at s teq x i /\ r = ROk (Ok x (i + List.length x) (update_loc c s (i + List.length x)) [] true) \/
   ~ lit_at s teq x i /\
   match rem with
   | None => failed_here (get_loc c s i) [l] r
   | Some m => exists sk,
       skips s (fun k (_ : unit) => lit_at s teq x k) (fun k => ~ lit_at s teq x k) i
         (fun k _ => skipping x (k - i) (k + List.length x) (update_loc c s (k + List.length x))
                       (get_loc c s i) [l] ins true) sk /\
       recovered_here ((if Z.eqb m 0 then [] else [auto_insertion x l i c (get_loc c s i) m]) ++ sk)
         (get_loc c s i) [l] r
   end).
Proof.
  assert (P1 : forall k t, probe_lit teq x s k = Ret (Some t) -> lit_at s teq x k).
  { unfold probe_lit. intros k t H. apply lit_at_starts. destruct (starts_with teq x s k); [auto|discriminate]. }
  assert (P2 : forall k, probe_lit teq x s k = Ret None -> ~ lit_at s teq x k).
  { unfold probe_lit. intros k H. apply starts_miss. destruct (starts_with teq x s k); [discriminate|auto]. }
  assert (P4 : exists o, skip_search s i (probe_lit teq x s) = Ret o).
  { unfold skip_search. generalize (List.length s - S i). intros n. generalize (S i). induction n as [|n IH]; intros j; simpl; [eauto|].
    destruct (starts_with teq x s j); simpl; eauto. }
  unfold recovers.
  destruct (starts_with teq x s i) eqn:Ho.
  - eexists. split; [exists 1; simpl; unfold literal_full; rewrite Ho; reflexivity|].
    left. split; [apply lit_at_starts; auto|reflexivity].
  - destruct rem as [m|].
    + destruct P4 as [o Hs].
      pose proof (skip_search_skips s i _ (fun k (_ : unit) => lit_at s teq x k) (fun k => ~ lit_at s teq x k) (fun t => t)
       (fun k _ => skipping x (k - i) (k + List.length x) (update_loc c s (k + List.length x))
                       (get_loc c s i) [l] ins true) o P1 P2 Hs) as K.
      destruct o as [[k t]|]; eexists; (split; [exists 1; simpl; unfold literal_full; rewrite Ho; simpl; rewrite Hs; reflexivity|]);
        right; (split; [apply starts_miss; auto|]); eexists; (split; [exact K|]); eexists; [reflexivity|rewrite app_nil_r; reflexivity].
    + eexists; (split; [exists 1; simpl; unfold literal_full; rewrite Ho; reflexivity|]). right.
      split; [apply starts_miss; auto|reflexivity].
Qed.
Theorem C41_regexp A (m : list T -> nat -> option (nat * option A)) s i c ins rem :
  exists r, recovers E (GRegexp m) s i c ins rem r /\
  ((exists e v, re_hit s m i (e, v) /\
      exists b, r = ROk (Ok v e (update_loc c s e) [] b) /\ (b = true <-> e <> i)) \/
   re_miss s m i /\
   match rem with
   | None => failed_here (get_loc c s i) [] r
   | Some _ => exists sk,
       skips s (re_hit s m) (re_miss s m) i
         (fun k ev => skipping (snd ev) (k - i) (fst ev) (update_loc c s (fst ev)) (get_loc c s i) [] ins true) sk /\
       match sk with [] => failed_here (get_loc c s i) [] r | _ => recovered_here sk (get_loc c s i) [] r end
   end).
Proof.
  assert (Q1 : forall k ev, probe_re m s k = Some ev -> re_hit s m k ev).
  { unfold probe_re, re_hit. intros k ev H. destruct (m s k) as [[e [v|]]|]; try discriminate. injection H as <-. reflexivity. }
  assert (Q2 : forall k, probe_re m s k = None -> re_miss s m k).
  { unfold probe_re, re_miss. intros k H e v K. rewrite K in H. discriminate. }
  assert (P4 : exists o, skip_search s i (fun cur => Ret (probe_re m s cur)) = Ret o).
  { unfold skip_search. generalize (List.length s - S i). intros n. generalize (S i). induction n as [|n IH]; intros j; simpl; [eauto|].
    destruct (probe_re m s j); simpl; eauto. }
  unfold recovers.
  destruct (probe_re m s i) as [[e v]|] eqn:Ho.
  - eexists. split; [exists 1; simpl; unfold regexp_full; rewrite Ho; reflexivity|].
    left. exists e, v. split; [auto|]. eexists. split; [reflexivity|].
    destruct (Nat.eqb_spec e i); simpl; split; intros; congruence.
  - destruct rem as [z|].
    + destruct P4 as [o Hs].
      pose proof (skip_search_skips s i (fun cur => Ret (probe_re m s cur)) (re_hit s m) (re_miss s m) (fun t => t)
         (fun k ev => skipping (snd ev) (k - i) (fst ev) (update_loc c s (fst ev)) (get_loc c s i) [] ins true) o) as K.
      destruct o as [[k [e v]]|]; eexists; (split; [exists 1; simpl; unfold regexp_full; rewrite Ho; simpl; rewrite Hs; reflexivity|]);
        right; (split; [auto|]); eexists; (split; [apply K; [intros k' y Hk; injection Hk as Hk; auto|intros k' Hk; injection Hk as Hk; auto|auto]|]).
      * eexists; reflexivity.
      * reflexivity.
    + eexists; (split; [exists 1; simpl; unfold regexp_full; rewrite Ho; reflexivity|]). right. split; [auto|reflexivity].
Qed.
(** [satisfy]: the test may raise; then the first test that raises decides *)
Theorem C41_satisfy test s i c ins rem r :
  recovers E (GSatisfy test) s i c ins rem r ->
  (exists t, tok_hit s test i t /\ r = ROk (Ok t (i + 1) c [] true)) \/
  tok_miss s test i /\
  match rem with
  | None => failed_here (get_loc c s i) [] r
  | Some _ => exists sk,
      skips s (tok_hit s test) (tok_miss s test) i
        (fun k t => skipping t (k - i) (k + 1) (update_loc c s (k + 1)) (get_loc c s i) [] ins true) sk /\
      match sk with [] => failed_here (get_loc c s i) [] r | _ => recovered_here sk (get_loc c s i) [] r end
  end.
Proof.
  assert (P1 : forall k t, probe_tok test s k = Ret (Some t) -> tok_hit s test k t).
  { unfold probe_tok, tok_hit. intros k t. destruct (nth_error s k) as [t'|]; [|discriminate].
    destruct (test t') as [[]| |] eqn:Ht; simpl; intros H; try discriminate. injection H as <-; auto. }
  assert (P2 : forall k, probe_tok test s k = Ret None -> tok_miss s test k).
  { unfold probe_tok, tok_miss. intros k H t Ht. rewrite Ht in H. destruct (test t) as [[]| |]; simpl in *; congruence. }
  intros [[|n] H]; [discriminate|]. cbn [full] in H. unfold satisfy_full in H.
  apply obind_ret in H as [[t|] [Ho H]].
  - injection H as <-. left. eauto.
  - right. split; [auto|]. destruct rem as [z|]; [|injection H as <-; reflexivity].
    apply obind_ret in H as [o [Hs H]].
    pose proof (skip_search_skips s i _ (tok_hit s test) (tok_miss s test) (fun t => t)
        (fun k t => skipping t (k - i) (k + 1) (update_loc c s (k + 1)) (get_loc c s i) [] ins true) o P1 P2 Hs) as K.
    destruct o as [[k t]|]; injection H as <-; eexists; (split; [exact K|]); [eexists|]; reflexivity.
Qed.
Theorem C41_satisfy_raises test s i c ins rem x :
  raises_rec E (GSatisfy test) s i c ins rem x <->
  exists k t, i <= k < List.length s /\ (rem = None -> k = i) /\
    nth_error s k = Some t /\ test t = Raise x /\ forall j, i <= j < k -> tok_miss s test j.
Proof.
  assert (P0 : forall k y, probe_tok test s k = Raise y <-> exists t, nth_error s k = Some t /\ test t = Raise y).
  { unfold probe_tok. intros k y. split.
    - destruct (nth_error s k) as [t|]; [|discriminate]. destruct (test t) eqn:Ht; simpl; try discriminate.
      intros H; injection H as <-. eauto.
    - intros (t & -> & ->). reflexivity. }
  assert (P1 : forall k t, probe_tok test s k = Ret (Some t) -> ~ tok_miss s test k).
  { unfold probe_tok, tok_miss. intros k t. destruct (nth_error s k) as [t'|] eqn:Hn; [|discriminate].
    intros H K. rewrite (K t' eq_refl) in H. discriminate. }
  assert (P2 : forall k, probe_tok test s k = Ret None <-> tok_miss s test k).
  { unfold probe_tok, tok_miss. intros k. split.
    - intros H t Ht. rewrite Ht in H. destruct (test t) as [[]| |]; simpl in *; congruence.
    - intros H. destruct (nth_error s k) as [t|]; [rewrite (H t eq_refl)|]; reflexivity. }
  assert (L : forall n j y, skip_loop (probe_tok test s) n j = Raise y <->
    exists k t, j <= k < j + n /\ nth_error s k = Some t /\ test t = Raise y /\ forall q, j <= q < k -> tok_miss s test q).
  { induction n as [|n IH]; intros j y; simpl.
    - split; [discriminate|]. intros (k & t & H & _). lia.
    - destruct (probe_tok test s j) as [[t|]|z|] eqn:Hj; simpl.
      + split; [discriminate|]. intros (k & t' & Hk & Hn & Ht & Hm). exfalso.
        destruct (Nat.eq_dec j k) as [<-|]; [|apply (P1 _ _ Hj); apply Hm; lia].
        assert (K : probe_tok test s j = Raise y) by (apply P0; eauto). congruence.
      + rewrite IH. split; intros (k & t & Hk & Hn & Ht & Hm); exists k, t.
        * split; [lia|]. split; [auto|]. split; [auto|]. intros q Hq.
          destruct (Nat.eq_dec q j) as [->|]; [apply P2; auto|apply Hm; lia].
        * assert (k <> j). { intros ->. assert (K : probe_tok test s j = Raise y) by (apply P0; eauto). congruence. }
          split; [lia|]. split; [auto|]. split; [auto|]. intros q Hq. apply Hm. lia.
      + split.
        * intros H. injection H as ->. apply P0 in Hj as (t & Hn & Ht). exists j, t.
          split; [lia|]. split; [auto|]. split; [auto|]. intros q Hq. lia.
        * intros (k & t & Hk & Hn & Ht & Hm). destruct (Nat.eq_dec j k) as [<-|].
          -- assert (K : probe_tok test s j = Raise y) by (apply P0; eauto). congruence.
          -- assert (K : probe_tok test s j = Ret None) by (apply P2; apply Hm; lia). congruence.
      + split; [discriminate|]. intros (k & t & Hk & Hn & Ht & Hm). destruct (Nat.eq_dec j k) as [<-|].
          -- assert (K : probe_tok test s j = Raise y) by (apply P0; eauto). congruence.
          -- assert (K : probe_tok test s j = Ret None) by (apply P2; apply Hm; lia). congruence. }
  transitivity (satisfy_full test s i c ins rem = Raise x).
  { split; [intros [[|n] H]; [discriminate|exact H]|intros H; exists 1; exact H]. }
  unfold satisfy_full. destruct (probe_tok test s i) as [[t|]|y|] eqn:Hi; simpl.
  - split; [discriminate|]. intros (k & t' & Hk & _ & Hn & Ht & Hm). exfalso.
    destruct (Nat.eq_dec i k) as [<-|]; [|apply (P1 _ _ Hi); apply Hm; lia].
    assert (K : probe_tok test s i = Raise x) by (apply P0; eauto). congruence.
  - assert (N : forall k t, nth_error s k = Some t -> test t = Raise x -> k <> i).
    { intros k t Hn Ht ->. assert (K : probe_tok test s i = Raise x) by (apply P0; eauto). congruence. }
    destruct rem as [z|].
    + transitivity (skip_loop (probe_tok test s) (List.length s - S i) (S i) = Raise x).
      { unfold skip_search. destruct (skip_loop (probe_tok test s) (List.length s - S i) (S i)) as [[[k t]|]| |]; simpl;
          split; congruence. }
      rewrite L. split; intros (k & t & H).
      * destruct H as (Hk & Hn & Ht & Hm). exists k, t. split; [lia|]. split; [discriminate|].
        split; [auto|]. split; [auto|]. intros q Hq.
        destruct (Nat.eq_dec q i) as [->|]; [apply P2; auto|apply Hm; lia].
      * destruct H as (Hk & _ & Hn & Ht & Hm). pose proof (N k t Hn Ht). exists k, t. split; [lia|].
        split; [auto|]. split; [auto|]. intros q Hq. apply Hm. lia.
    + split; [discriminate|]. intros (k & t & _ & Hk & Hn & Ht & _). destruct (N k t Hn Ht). auto.
  - split.
    + intros H. injection H as ->. apply P0 in Hi as (t & Hn & Ht). exists i, t.
      assert (i < List.length s) by (apply nth_error_Some; congruence).
      split; [lia|]. split; [auto|]. split; [auto|]. split; [auto|]. intros q Hq. lia.
    + intros (k & t & Hk & _ & Hn & Ht & Hm). destruct (Nat.eq_dec i k) as [<-|].
      * assert (K : probe_tok test s i = Raise x) by (apply P0; eauto). congruence.
      * assert (K : probe_tok test s i = Ret None) by (apply P2; apply Hm; lia). congruence.
  - split; [discriminate|]. intros (k & t & Hk & _ & Hn & Ht & Hm). destruct (Nat.eq_dec i k) as [<-|].
      * assert (K : probe_tok test s i = Raise x) by (apply P0; eauto). congruence.
      * assert (K : probe_tok test s i = Ret None) by (apply P2; apply Hm; lia). congruence.
Qed.
(** [eof] skips the rest of the stream (the skip is pending: the repair does not
    count as having consumed) *)
Theorem C41_eof s i c ins rem : i <= List.length s ->
  exists r, recovers E GEof s i c ins rem r /\
  (i = List.length s /\ r = ROk (Ok tt i c [] false) \/
   i < List.length s /\
   match rem with
   | None => failed_here (get_loc c s i) ["end of file"%string] r
   | Some _ =>
       recovered_here [skipping tt (List.length s - i) (List.length s) c (get_loc c s i)
                         ["end of file"%string] ins false]
         (get_loc c s i) ["end of file"%string] r
   end).
Proof.
  intros Hi. destruct (Nat.eqb_spec i (List.length s)) as [He|He].
  - eexists. split; [exists 1; simpl; unfold eof_full; apply Nat.eqb_eq in He; rewrite He; reflexivity|]. auto.
  - assert (i < List.length s) by lia. apply Nat.eqb_neq in He. destruct rem.
    + eexists. split; [exists 1; simpl; unfold eof_full; rewrite He; reflexivity|].
      right. split; auto. eexists. reflexivity.
    + eexists. split; [exists 1; simpl; unfold eof_full; rewrite He; reflexivity|].
      right. split; auto. reflexivity.
Qed.
End Single.
Print Assumptions C19_label_plain.
Print Assumptions C19_label_recovery.
Print Assumptions C19_outermost_label_wins.
Print Assumptions C20_attempt_plain.
Print Assumptions C20_attempt_choice.
Print Assumptions C20_attempt_recovery.
Print Assumptions C20_attempt_idempotent.
Print Assumptions C37_recover_with_plain.
Print Assumptions C37_recover_with_off.
Print Assumptions C37_recover_with_fn.
Print Assumptions C37_recover_with.
Print Assumptions C38_recover_only_priorities.
Print Assumptions C38_recover_plain.
Print Assumptions C38_recover_idempotent.
Print Assumptions C41_sym.
Print Assumptions C41_literal.
Print Assumptions C41_regexp.
Print Assumptions C41_satisfy.
Print Assumptions C41_satisfy_raises.
Print Assumptions C41_eof.

(** label: renamed when nothing was consumed, kept after consumption; in
    recovery the repairs' operations are renamed as well *)
Definition sg_exps {A} (r : out (res char A)) : list (list (list string)) :=
  match r with Ret (RRec rc) => map (fun r => map op_exp (r_ops r)) (rc_reps rc) | _ => [] end.
Example C19_case :
  let p := seqr (ex_sym "a") (ex_sym "b") in
  ch_run (GLabel p "L") "x" = Ret (SErr (Err (Loc 0 0 0) ["L"]%string false)) /\
  ch_run (GLabel p "L") "ax" = Ret (SErr (Err (Loc 1 0 1) ["'b'"]%string true)) /\
  sg_exps (law_rec (GLabel p "L") "xab") = [[["L"]; ["'b'"]]; [["L"]; ["'b'"]]; [["L"]]]%string /\
  sg_exps (law_rec (GLabel p "L") "") = [[["L"]; ["'b'"]]]%string.
Proof. vm_compute. auto. Qed.
Example C20_case :
  let p := seqr (ex_sym "a") (ex_sym "b") in
  (exists e, ch_run p "ac" = Ret (SErr e) /\ er_con e = true) /\
  ch_run (GAlt (GAttempt p) (seqr (ex_sym "a") (ex_sym "c"))) "ac" =
  Ret (SOk (Ok (ex_ch "c") 2 law_c [] true)).
Proof. vm_compute. split; [eexists; repeat split|reflexivity]. Qed.
(** recover_with: the insertion comes first, the repairs of [p] follow; no
    insertion left, or input consumed: only [p]'s *)
Example C37_case :
  let p := GRecoverWith (seqr (ex_sym "a") (ex_sym "b")) 0%N "z" in
  ch_ops (law_rec p "xab") = [[Insert "z"]; [Insert "'a'"; Insert "'b'"]; [Insert "'a'"; Skip 2]; [Skip 1]] /\
  ch_ops (full ex_E 60 p (ex_str "xab") 0 law_c 2 (Some 0%Z)) = [[Skip 1]] /\
  ch_ops (law_rec p "axb") = [[Insert "'b'"]; [Skip 1]].
Proof. vm_compute. auto. Qed.
Example C38_case :
  (match law_rec (ex_sym "b") "xab" with Ret (RRec rc) => map r_prio (rc_reps rc) | _ => [] end) = [None; Some 0] /\
  (match law_rec (GRecover (ex_sym "b")) "xab" with Ret (RRec rc) => map r_prio (rc_reps rc) | _ => [] end) = [Some 0; Some 0].
Proof. vm_compute. auto. Qed.
(** the nearest of two later matches is taken *)
Example C41_case :
  nearest (ex_str "xyaba") (sym_hit (ex_str "xyaba") N.eqb (ex_ch "a"))
    (sym_miss (ex_str "xyaba") N.eqb (ex_ch "a")) 0 2 (ex_ch "a") /\
  ch_ops (law_rec (ex_sym "a") "xyaba") = [[Insert "'a'"]; [Skip 2]] /\
  ch_ops (law_rec (GLiteral N.eqb (ex_str "ba") "'ba'") "xyaba") = [[Insert "'ba'"]; [Skip 3]] /\
  ch_ops (law_rec GEof "xyaba") = [[Skip 5]].
Proof.
  split; [|vm_compute; auto]. split; [vm_compute; lia|]. split; [vm_compute; auto|].
  intros j Hj. assert (j = 1) as -> by lia. intros t Ht. vm_compute in Ht. injection Ht as <-. reflexivity.
Qed.
