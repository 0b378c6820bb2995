(** Parsers without Delay and without many: how much work recovery can make. *)
From Verif Require Import CostFullProofs DepthFullProofs RepCount MoreCalls.

Section Straight.
Context {T : Type} {V : nat -> Type}.
Notation gram := (gram T V).
(** neither a Delay nor a repetition in the parser *)
Definition straight {A} (g : gram A) : Prop :=
  gall (fun B q => match q with GDelay _ | GMany _ => False | _ => True end) g.
Variable E : env T V.

(** ** Calls *)
Fixpoint straight_calls (w : nat) : nat :=
  match w with O => 0 | S w => let k := straight_calls w in 1 + 4 * k + 2 * k * k end.
Lemma straight_calls_S w : straight_calls (S w) = 1 + 4 * straight_calls w + 2 * straight_calls w * straight_calls w.
Proof. reflexivity. Qed.
Lemma straight_calls_mono a b : a <= b -> straight_calls a <= straight_calls b.
Proof. induction 1; [lia|]. rewrite straight_calls_S. lia. Qed.
Lemma cbind_bound {A B} (m : cm A) (f : A -> cm B) X Y : fst m <= X -> (forall a, snd m = Ret a -> fst (f a) <= Y) ->
  fst (cbind m f) <= X + Y.
Proof. intros H Hf. unfold cbind. destruct (snd m); cbn [fst]; try lia. specialize (Hf a eq_refl). lia. Qed.
Lemma cbind_ret_bound {A B} (m : cm A) (f : A -> out B) X : fst m <= X -> fst (cbind m (fun a => cret (f a))) <= X.
Proof. intros H. unfold cbind. destruct (snd m); cbn [fst cret]; lia. Qed.
Lemma cflat_bound {A B} (f : A -> cm (list B)) l Y : (forall a, fst (f a) <= Y) -> fst (cflat_map f l) <= List.length l * Y.
Proof.
  intros H. induction l as [|a l IH]; [cbn; lia|]. cbn [cflat_map List.length Nat.mul]. apply cbind_bound; [apply H|].
  intros y _. apply cbind_ret_bound, IH.
Qed.
Lemma continue_bound {A B C} (ra : recr T A) ins (parse : A -> nat -> ctx T -> Z -> cm (res T B)) (merge : A -> B -> C) Y :
  (forall v p c r, fst (parse v p c r) <= Y) -> fst (continue_cost ra ins parse merge) <= List.length (rc_reps ra) * Y.
Proof.
  intros H. unfold continue_cost. apply cbind_ret_bound, cflat_bound. intros a. unfold cont_one_cost, cbind.
  specialize (H (r_val a) (r_pos a) (r_ctx a) (r_ins a)).
  destruct (snd (parse (r_val a) (r_pos a) (r_ctx a) (r_ins a))) as [[o|e|r]| |]; cbn [fst cret]; lia.
Qed.

Lemma straight_cost n : forall A (g : gram A) w s pos c ins rem, size_le g w -> straight g ->
  fst (cfull E n g s pos c ins rem) <= straight_calls w.
Proof.
  induction n as [|n IH]; intros A g w s pos c ins rem Hw Hd; [cbn; lia|]. pose proof (size_pos _ _ _ Hw) as H1.
  destruct w as [|w]; [lia|].
  assert (IH' : forall B (p : gram B) a s pos c ins rem, size_le p a -> straight p -> a <= w ->
    fst (cfull E n p s pos c ins rem) <= straight_calls w).
  { intros B p a s0 pos0 c0 ins0 rem0 Ha Hp L. etransitivity; [apply (IH _ p a); auto|]. apply straight_calls_mono; auto. }
  rewrite straight_calls_S. cbn [cfull]. unfold tick. cbn [fst].
  set (k := straight_calls w) in *. apply (Nat.add_le_mono_l _ (4 * k + 2 * k * k) 1).
  destruct g as [A x|A f|A l| |test|teq x l|teq x l|A m|A B p f|A p q|A B p f|A B C p q merge|A p|A p|A p|A p x|A p|A p x l|A p fn lab|A p|A p|A delta p|d|A];
    try (cbn; lia).
  all: try (destruct Hw as (a & Hw & Hn); destruct Hd as [Hd0 Hd]; pose proof (fun s pos c ins rem => IH' _ p a s pos c ins rem Hw Hd ltac:(lia)) as HP).
  all: try (destruct Hw as (a & b & Hw & Hwb & Hn); destruct Hd as (_ & Hd & Hdb);
    pose proof (fun s pos c ins rem => IH' _ p a s pos c ins rem Hw Hd ltac:(lia)) as HP).
  - unfold fmap_costr. etransitivity; [apply cbind_ret_bound, HP|]. lia.
  - pose proof (fun s pos c ins rem => IH' _ q b s pos c ins rem Hwb Hdb ltac:(lia)) as HQ.
    assert (R : forall la x, fst (alt_recover_cost (cfull E n p) (cfull E n q) la x s pos c ins rem) <= k + (k + 0)).
    { intros la x. unfold alt_recover_cost. destruct rem as [m|]; [|cbn; lia].
      apply cbind_bound; [apply HP|]. intros ra _. apply cbind_bound; [apply HQ|]. intros rb _. destruct ra, rb; cbn; lia. }
    unfold alt_costr. etransitivity; [apply (cbind_bound _ _ k (k + (k + (k + 0)))); [apply HP|]|lia].
    intros ra _. destruct ra as [o|[la xa ca]|[reps mn la xa ca]]; [cbn; lia| |];
      (destruct ca; [cbn; lia|]; apply (cbind_bound _ _ k (k + (k + 0))); [apply HQ|];
       intros rb _; destruct (res_con rb); [cbn; lia|]; cbv zeta; destruct rb; [cbn; lia| |]; apply R).
  - pose proof (fun v s pos c ins rem => IH' _ (f v) b s pos c ins rem (Hwb v) (Hdb v) ltac:(lia)) as HQ.
    unfold bind_costr. etransitivity; [apply (cbind_bound _ _ k (k + 2 * k * k)); [apply HP|]|lia].
    intros ra Ea. destruct ra as [o|e|rc]; [| cbn; lia|].
    + etransitivity; [apply cbind_ret_bound, HQ|]. lia.
    + etransitivity; [apply continue_bound; intros; apply HQ|].
      pose proof (wt_full E n _ p s pos c ins rem _ Ea) as W. specialize (HP s pos c ins rem). cbn [weight] in W.
      rewrite Nat.add_0_r in W. assert (L : List.length (rc_reps rc) <= 2 * k) by lia. nia.
  - pose proof (fun s pos c ins rem => IH' _ q b s pos c ins rem Hwb Hdb ltac:(lia)) as HQ.
    unfold seq_costr. etransitivity; [apply (cbind_bound _ _ k (k + 2 * k * k)); [apply HP|]|lia].
    intros ra Ea. destruct ra as [o|e|rc]; [| cbn; lia|].
    + cbv zeta. etransitivity; [apply cbind_ret_bound, HQ|]. lia.
    + etransitivity; [apply continue_bound; intros; apply HQ|].
      pose proof (wt_full E n _ p s pos c ins rem _ Ea) as W. specialize (HP s pos c ins rem). cbn [weight] in W.
      rewrite Nat.add_0_r in W. assert (L : List.length (rc_reps rc) <= 2 * k) by lia. nia.
  - unfold maybe_costr. etransitivity; [apply cbind_ret_bound, HP|]. lia.
  - destruct Hd0.
  - unfold attempt_costr. destruct rem; [specialize (HP s pos c ins (Some z)); lia|].
    etransitivity; [apply (cbind_bound _ _ k 0)|lia].
    + etransitivity; [|apply (HP s pos c ins None)]. apply cost_more.
    + intros [o|e] _; cbn; lia.
  - unfold label_costr. etransitivity; [apply cbind_ret_bound, HP|]. lia.
  - unfold recover_costr. etransitivity; [apply cbind_ret_bound, HP|]. lia.
  - unfold recover_with_costr. destruct rem as [m|]; [etransitivity; [apply cbind_ret_bound, HP|]|etransitivity; [apply HP|]]; lia.
  - unfold recover_with_costr. destruct rem as [m|]; [etransitivity; [apply cbind_ret_bound, HP|]|etransitivity; [apply HP|]]; lia.
  - unfold block_costr. cbv zeta. etransitivity; [apply cbind_ret_bound, HP|]. lia.
  - unfold aligned_costr. cbv zeta. destruct (Z.eqb _ _); [etransitivity; [apply HP|]; lia|cbn; lia].
  - unfold indented_costr. cbv zeta. destruct (Z.eqb _ _); [etransitivity; [apply cbind_ret_bound, HP|]; lia|cbn; lia].
  - destruct Hd as [[] _].
Qed.

(** ** Depth *)
Lemma dflat_le {A B} (f : A -> dm (list B)) l X : (forall a, fst (f a) <= X) -> fst (dflat_map f l) <= X.
Proof.
  intros H. induction l as [|a l IH]; [cbn; lia|]. cbn [dflat_map]. apply dbind_le; [apply H|]. intros y _.
  apply dbind_le; [apply IH|]. intros; apply dret_le.
Qed.
Lemma dcontinue_le {A B C} (ra : recr T A) ins (parse : A -> nat -> ctx T -> Z -> dm (res T B)) (merge : A -> B -> C) X :
  (forall v p c r, fst (parse v p c r) <= X) -> fst (continue_depth ra ins parse merge) <= X.
Proof.
  intros H. unfold continue_depth. apply dbind_le; [|intros; apply dret_le]. apply dflat_le. intros a. unfold cont_one_depth.
  apply dbind_le; [apply H|]. intros [o|e|r] _; apply dret_le.
Qed.
Lemma straight_depth n : forall A (g : gram A) w s i c ins rem, size_le g w -> straight g ->
  fst (dfull E n g s i c ins rem) <= w.
Proof.
  induction n as [|n IH]; intros A g w s i c ins rem Hw Hd; [cbn; lia|]. pose proof (size_pos _ _ _ Hw) as H1.
  destruct g as [A x|A f|A l| |test|teq x l|teq x l|A m|A B p f|A p q|A B p f|A B C p q merge|A p|A p|A p|A p x|A p|A p x l|A p fn lab|A p|A p|A delta p|d|A];
    cbn [dfull]; try (cbn; lia).
  all: try (destruct Hw as (a & Hw & Hn); destruct Hd as [Hd0 Hd];
    assert (HP : forall s i c ins rem, fst (dfull E n p s i c ins rem) <= w - 1) by
      (intros s0 i0 c0 ins0 rem0; pose proof (IH _ p a s0 i0 c0 ins0 rem0 Hw Hd); lia)).
  all: try (destruct Hw as (a & b & Hw & Hwb & Hn); destruct Hd as (_ & Hd & Hdb);
    assert (HP : forall s i c ins rem, fst (dfull E n p s i c ins rem) <= w - 1) by
      (intros s0 i0 c0 ins0 rem0; pose proof (IH _ p a s0 i0 c0 ins0 rem0 Hw Hd); lia)).
  all: try (apply (nest_le _ (w - 1)); [|lia]).
  - apply dbind_le; [apply HP|]. intros; apply dret_le.
  - assert (HQ : forall s i c ins rem, fst (dfull E n q s i c ins rem) <= w - 1) by
      (intros s0 i0 c0 ins0 rem0; pose proof (IH _ q b s0 i0 c0 ins0 rem0 Hwb Hdb); lia).
    assert (R : forall la x, fst (alt_recover_depth (dfull E n p) (dfull E n q) la x s i c ins rem) <= w - 1).
    { intros la x. unfold alt_recover_depth. destruct rem as [m|]; [|apply dret_le].
      apply dbind_le; [apply HP|]. intros ra _. apply dbind_le; [apply HQ|]. intros rb _. destruct ra, rb; apply dret_le. }
    unfold alt_depthr. apply dbind_le; [apply HP|].
    intros ra _. destruct ra as [o|[la xa ca]|[reps mn la xa ca]]; [apply dret_le| |];
      (destruct ca; [apply dret_le|]; apply dbind_le; [apply HQ|];
       intros rb _; destruct (res_con rb); [apply dret_le|]; cbv zeta; destruct rb; [apply dret_le| |]; apply R).
  - assert (HQ : forall v s i c ins rem, fst (dfull E n (f v) s i c ins rem) <= w - 1) by
      (intros v s0 i0 c0 ins0 rem0; pose proof (IH _ (f v) b s0 i0 c0 ins0 rem0 (Hwb v) (Hdb v)); lia).
    unfold bind_depthr. apply dbind_le; [apply HP|]. intros ra _. destruct ra as [o|e|rc]; [|apply dret_le|].
    + apply dbind_le; [apply HQ|]. intros; apply dret_le.
    + apply dcontinue_le. intros. apply HQ.
  - assert (HQ : forall s i c ins rem, fst (dfull E n q s i c ins rem) <= w - 1) by
      (intros s0 i0 c0 ins0 rem0; pose proof (IH _ q b s0 i0 c0 ins0 rem0 Hwb Hdb); lia).
    unfold seq_depthr. apply dbind_le; [apply HP|]. intros ra _. destruct ra as [o|e|rc]; [|apply dret_le|].
    + cbv zeta. apply dbind_le; [apply HQ|]. intros; apply dret_le.
    + apply dcontinue_le. intros. apply HQ.
  - unfold maybe_depthr. apply dbind_le; [apply HP|]. intros; apply dret_le.
  - destruct Hd0.
  - unfold attempt_depthr. destruct rem; [apply HP|]. apply dbind_le; [|intros [o|e] _; apply dret_le].
    etransitivity; [|apply (HP s i c ins None)]. apply depth_more.
  - unfold label_depthr. apply dbind_le; [apply HP|]. intros; apply dret_le.
  - unfold recover_depthr. apply dbind_le; [apply HP|]. intros; apply dret_le.
  - unfold recover_with_depthr. destruct rem as [m|]; [|apply HP]. apply dbind_le; [apply HP|]. intros; apply dret_le.
  - unfold recover_with_depthr. destruct rem as [m|]; [|apply HP]. apply dbind_le; [apply HP|]. intros; apply dret_le.
  - unfold block_depthr. cbv zeta. apply dbind_le; [apply HP|]. intros; apply dret_le.
  - unfold aligned_depthr. cbv zeta. destruct (Z.eqb _ _); [apply HP|apply dret_le].
  - unfold indented_depthr. cbv zeta. destruct (Z.eqb _ _); [|apply dret_le]. apply dbind_le; [apply HP|]. intros; apply dret_le.
  - destruct Hd as [[] _].
Qed.
End Straight.
