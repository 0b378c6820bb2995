(** Property C57: without repetition and Delay, and without recovery, every parser is
    called at most once. *)
From Verif Require Import CostSpec CostProofs DepthProofs Straight Examples PropsTotal PropsCostFull.

Section Once.
Context {T : Type} {V : nat -> Type}.
Variable E : env T V.
Lemma once_ret {A B} (m : cm A) (f : A -> out B) X : fst m <= X -> fst (cbind m (fun a => cret (f a))) <= X.
Proof. intros H. unfold cbind. destruct (snd m); cbn [fst cret]; lia. Qed.
Lemma once n : forall A (g : gram T V A) w s i c, size_le g w -> straight g -> fst (cfast E n g s i c) <= w.
Proof.
  induction n as [|n IH]; intros A g w s i c Hw Hd; [cbn; lia|]. pose proof (size_pos _ _ _ Hw) as H1.
  destruct g as [A x|A f|A l| |test|teq x l|teq x l|A m|A B p f|A p q|A B p f|A B C p q merge|A p|A p|A p|A p x|A p|A p x l|A p fn lab|A p|A p|A delta p|d|A];
    cbn [cfast]; try (cbn; lia).
  all: try (destruct Hw as (a & Hw & Hn); destruct Hd as [Hd0 Hd];
    assert (HP : forall s i c, fst (cfast E n p s i c) <= w - 1) by
      (intros s0 i0 c0; pose proof (IH _ p a s0 i0 c0 Hw Hd); lia)).
  all: try (destruct Hw as (a & b & Hw & Hwb & Hn); destruct Hd as (_ & Hd & Hdb);
    assert (HP : forall s i c, fst (cfast E n p s i c) <= a) by (intros; apply (IH _ p a); auto)).
  all: unfold tick; cbn [fst]; try (apply (Nat.le_trans _ (S (w - 1))); [apply le_n_S|lia]).
  - apply once_ret, HP.
  - assert (HQ : forall s i c, fst (cfast E n q s i c) <= b) by (intros; apply (IH _ q b); auto).
    unfold alt_cost. etransitivity; [apply (cbind_bound _ _ a b); [apply HP|]|lia].
    intros [o|e] _; [cbn; lia|]. destruct (er_con e); [cbn; lia|]. rewrite <- (Nat.add_0_r b). apply cbind_bound; [apply HQ|].
    intros r _. destruct (sres_con r); [cbn; lia|]. destruct r; cbn; lia.
  - unfold bind_cost. etransitivity; [apply (cbind_bound _ _ a b); [apply HP|]|lia].
    intros [o|e] _; [|cbn; lia]. apply once_ret. apply (IH _ (f (ok_val o)) b); [apply Hwb|apply Hdb].
  - unfold seq_cost. etransitivity; [apply (cbind_bound _ _ a b); [apply HP|]|lia].
    intros [o|e] _; [|cbn; lia]. apply once_ret. apply (IH _ q b); auto.
  - unfold maybe_cost. rewrite <- (Nat.add_0_r (w - 1)). apply cbind_bound; [apply HP|].
    intros [o|e] _; [cbn; lia|]. destruct (er_con e); cbn; lia.
  - destruct Hd0.
  - unfold attempt_cost. rewrite <- (Nat.add_0_r (w - 1)). apply cbind_bound; [apply HP|]. intros [o|e] _; cbn; lia.
  - apply once_ret, HP.
  - etransitivity; [apply HP|lia].
  - etransitivity; [apply HP|lia].
  - etransitivity; [apply HP|lia].
  - unfold block_cost. cbv zeta. apply once_ret, HP.
  - unfold aligned_cost. cbv zeta. destruct (Z.eqb _ _); [apply HP|cbn; lia].
  - unfold indented_cost. cbv zeta. destruct (Z.eqb _ _); [apply once_ret, HP|cbn; lia].
  - destruct Hd as [[] _].
Qed.
End Once.

(** at most as many calls as the parser is built from, on every input, also if the run
    raises *)
Theorem C57_no_repetition :
  forall T V (E : env T V) A (g : gram T V A) w, size_le g w -> straight g ->
  forall s get fmt n, fst (parse_counted E n g s get fmt) <= w.
Proof. intros. unfold parse_counted. cbn [fst]. apply once; auto. Qed.
Print Assumptions C57_no_repetition.

(** attained by a sequence of two characters on an input that has both *)
Theorem C57_case_no_repetition :
  size_le ab_p 3 /\ straight ab_p /\
  fst (parse_counted ex_E 150 ab_p (ex_str "ab") scannerless_get_loc linecol_fmt) = 3 /\
  fst (parse_counted ex_E 150 ab_p (ex_str "b") scannerless_get_loc linecol_fmt) = 2.
Proof.
  split; [exists 1, 1; cbn; lia|]. split; [solve_gall|]. split; vm_compute; reflexivity.
Qed.
