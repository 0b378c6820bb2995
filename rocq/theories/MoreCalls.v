(** A parse with recovery never makes fewer calls than one without, and never nests
    them less deeply, whatever the input (proofs). *)
From Verif Require Export CostFullProofs DepthFullProofs Simulation.
From Coq Require Import Lia.

Section MoreCalls.
Context {T : Type} {V : nat -> Type}.
Notation gram := (gram T V).
Variable E : env T V.

Lemma cbind_le A B A' B' (m : cm A) (f : A -> cm B) (M : cm A') (F : A' -> cm B') :
  fst m <= fst M ->
  (forall a, snd m = Ret a -> fst (f a) = 0 \/ exists x, snd M = Ret x /\ fst (f a) <= fst (F x)) ->
  fst (cbind m f) <= fst (cbind M F).
Proof using.
  intros H K. assert (L : fst M <= fst (cbind M F)) by (unfold cbind; destruct (snd M); cbn; lia).
  unfold cbind at 1. destruct (snd m) as [a|e|]; cbn [fst]; try lia.
  destruct (K a eq_refl) as [K1|(x & K1 & K2)]; [lia|]. unfold cbind. rewrite K1. cbn [fst]. lia.
Qed.
Lemma cbind_le_l A B C (m : cm A) (f : A -> out B) (M : cm C) : fst m <= fst M ->
  fst (cbind m (fun a => cret (f a))) <= fst M.
Proof using. intros H. unfold cbind. destruct (snd m); cbn; lia. Qed.
Lemma cbind_le_r A B (m : cm A) (f : A -> cm B) k : k <= fst m -> k <= fst (cbind m f).
Proof using. intros H. unfold cbind. destruct (snd m); cbn; lia. Qed.

Lemma csim n A (g : gram A) s pos c ins rem : sim rem (snd (cfast E n g s pos c)) (snd (cfull E n g s pos c ins rem)).
Proof using. rewrite cfast_fast, cfull_full. apply sim_fast_full. Qed.

Theorem cost_more n : forall A (g : gram A) s pos c ins rem,
  fst (cfast E n g s pos c) <= fst (cfull E n g s pos c ins rem).
Proof using.
  induction n as [|n IH]; intros A g s pos c ins rem; [apply Nat.le_refl|].
  destruct g; cbn [cfast cfull tick fst]; try (apply Nat.le_refl); try apply le_n_S.
  - (* fmap *) apply cbind_le_l, cbind_le_r, IH.
  - (* alt *) unfold alt_cost, alt_costr. apply cbind_le; [apply IH|]. intros a Q.
    pose proof (csim n A g1 s pos c ins None) as H1. rewrite Q in H1.
    destruct a as [o|e]; [left; reflexivity|]. destruct (er_con e) eqn:Ec; [left; reflexivity|]. right.
    cbn in H1. rewrite Ec in H1. exists (RErr e). split; [exact H1|]. destruct e as [le xe ce]. cbn in Ec. subst ce.
    apply cbind_le; [apply IH|]. intros b _. left.
    match goal with |- fst (if ?b then _ else _) = 0 => destruct b end; [reflexivity|]. destruct b; reflexivity.
  - (* bind *) unfold bind_cost, bind_costr. apply cbind_le; [apply IH|]. intros a Q.
    pose proof (csim n A g s pos c ins rem) as H1. rewrite Q in H1.
    destruct a as [o|e]; [|left; reflexivity]. right. exists (ROk o). split; [exact H1|].
    apply cbind_le_l, cbind_le_r, IH.
  - (* seq *) unfold seq_cost, seq_costr. apply cbind_le; [apply IH|]. intros a Q.
    pose proof (csim n A g1 s pos c ins rem) as H1. rewrite Q in H1.
    destruct a as [o|e]; [|left; reflexivity]. right. exists (ROk o). split; [exact H1|].
    apply cbind_le_l, cbind_le_r, IH.
  - (* maybe *) unfold maybe_cost, maybe_costr. apply cbind_le; [apply IH|]. intros a Q. left.
    destruct a as [o|e]; [reflexivity|]. destruct (er_con e); reflexivity.
  - (* many *) assert (M : forall k con vs pos c, fst (many_cost (cfast E n g) k con vs s pos c) <=
      fst (many_costr (cfull E n g) k con vs s pos c ins)).
    { clear pos c. intros k. induction k as [|k IHk]; intros con vs pos c; [apply Nat.le_refl|].
      cbn [many_cost many_costr]. apply cbind_le; [apply IH|]. intros a Q.
      pose proof (csim n A g s pos c ins None) as H1. rewrite Q in H1.
      destruct a as [o|e]; [|left; destruct (er_con e); reflexivity]. right. exists (ROk o). split; [exact H1|].
      destruct (ok_con o); [apply IHk|apply Nat.le_refl]. }
    apply M.
  - (* attempt *) unfold attempt_cost, attempt_costr. destruct rem as [left|].
    + etransitivity; [|apply IH]. unfold cbind. destruct (snd (cfast E n g s pos c)) as [[|]| |]; cbn; lia.
    + apply cbind_le; [apply Nat.le_refl|]. intros [o|e] _; left; reflexivity.
  - (* label *) apply cbind_le_l, cbind_le_r, IH.
  - apply Nat.le_le_succ_r. apply cbind_le_r, IH.
  - apply Nat.le_le_succ_r. unfold recover_with_costr. destruct rem; [apply cbind_le_r|]; apply IH.
  - apply Nat.le_le_succ_r. unfold recover_with_costr. destruct rem; [apply cbind_le_r|]; apply IH.
  - (* block *) apply cbind_le_l, cbind_le_r, IH.
  - (* aligned *) unfold aligned_cost, aligned_costr. cbv zeta. destruct (Z.eqb _ _); [apply IH|apply Nat.le_refl].
  - (* indented *) unfold indented_cost, indented_costr. cbv zeta. destruct (Z.eqb _ _); [|apply Nat.le_refl].
    apply cbind_le_l, cbind_le_r, IH.
  - (* delay *) apply IH.
Qed.

Lemma dbind_le' A B A' B' (m : dm A) (f : A -> dm B) (M : dm A') (F : A' -> dm B') :
  fst m <= fst M ->
  (forall a, snd m = Ret a -> fst (f a) = 0 \/ exists x, snd M = Ret x /\ fst (f a) <= fst (F x)) ->
  fst (dbind m f) <= fst (dbind M F).
Proof using.
  intros H K. assert (L : fst M <= fst (dbind M F)) by (unfold dbind; destruct (snd M); cbn; lia).
  unfold dbind at 1. destruct (snd m) as [a|e|]; cbn [fst]; try lia.
  destruct (K a eq_refl) as [K1|(x & K1 & K2)]; [lia|]. unfold dbind in *. rewrite K1 in *. cbn [fst] in *. lia.
Qed.
Lemma dbind_le_l A B C (m : dm A) (f : A -> out B) (M : dm C) : fst m <= fst M ->
  fst (dbind m (fun a => dret (f a))) <= fst M.
Proof using. intros H. unfold dbind. destruct (snd m); cbn; lia. Qed.
Lemma dbind_le_r A B (m : dm A) (f : A -> dm B) k : k <= fst m -> k <= fst (dbind m f).
Proof using. intros H. unfold dbind. destruct (snd m); cbn; lia. Qed.

Lemma dsim n A (g : gram A) s pos c ins rem : sim rem (snd (dfast E n g s pos c)) (snd (dfull E n g s pos c ins rem)).
Proof using. rewrite dfast_fast, dfull_full. apply sim_fast_full. Qed.

Theorem depth_more n : forall A (g : gram A) s pos c ins rem,
  fst (dfast E n g s pos c) <= fst (dfull E n g s pos c ins rem).
Proof using.
  induction n as [|n IH]; intros A g s pos c ins rem; [apply Nat.le_refl|].
  destruct g; cbn [dfast dfull nest fst]; try (apply Nat.le_refl); try apply le_n_S.
  - apply dbind_le_l, dbind_le_r, IH.
  - unfold alt_depth, alt_depthr. apply dbind_le'; [apply IH|]. intros a Q.
    pose proof (dsim n A g1 s pos c ins None) as H1. rewrite Q in H1.
    destruct a as [o|e]; [left; reflexivity|]. destruct (er_con e) eqn:Ec; [left; reflexivity|]. right.
    cbn in H1. rewrite Ec in H1. exists (RErr e). split; [exact H1|]. destruct e as [le xe ce]. cbn in Ec. subst ce.
    apply dbind_le'; [apply IH|]. intros b _. left.
    match goal with |- fst (if ?b then _ else _) = 0 => destruct b end; [reflexivity|]. destruct b; reflexivity.
  - unfold bind_depth, bind_depthr. apply dbind_le'; [apply IH|]. intros a Q.
    pose proof (dsim n A g s pos c ins rem) as H1. rewrite Q in H1.
    destruct a as [o|e]; [|left; reflexivity]. right. exists (ROk o). split; [exact H1|].
    apply dbind_le_l, dbind_le_r, IH.
  - unfold seq_depth, seq_depthr. apply dbind_le'; [apply IH|]. intros a Q.
    pose proof (dsim n A g1 s pos c ins rem) as H1. rewrite Q in H1.
    destruct a as [o|e]; [|left; reflexivity]. right. exists (ROk o). split; [exact H1|].
    apply dbind_le_l, dbind_le_r, IH.
  - unfold maybe_depth, maybe_depthr. apply dbind_le'; [apply IH|]. intros a Q. left.
    destruct a as [o|e]; [reflexivity|]. destruct (er_con e); reflexivity.
  - assert (M : forall k con vs pos c, fst (many_depth (dfast E n g) k con vs s pos c) <=
      fst (many_depthr (dfull E n g) k con vs s pos c ins)).
    { clear pos c. intros k. induction k as [|k IHk]; intros con vs pos c; [apply Nat.le_refl|].
      cbn [many_depth many_depthr]. apply dbind_le'; [apply IH|]. intros a Q.
      pose proof (dsim n A g s pos c ins None) as H1. rewrite Q in H1.
      destruct a as [o|e]; [|left; destruct (er_con e); reflexivity]. right. exists (ROk o). split; [exact H1|].
      destruct (ok_con o); [apply IHk|apply Nat.le_refl]. }
    apply M.
  - unfold attempt_depth, attempt_depthr. destruct rem as [left|].
    + etransitivity; [|apply IH]. unfold dbind. destruct (snd (dfast E n g s pos c)) as [[|]| |]; cbn; lia.
    + apply dbind_le'; [apply Nat.le_refl|]. intros [o|e] _; left; reflexivity.
  - apply dbind_le_l, dbind_le_r, IH.
  - apply Nat.le_le_succ_r. apply dbind_le_r, IH.
  - apply Nat.le_le_succ_r. unfold recover_with_depthr. destruct rem; [apply dbind_le_r|]; apply IH.
  - apply Nat.le_le_succ_r. unfold recover_with_depthr. destruct rem; [apply dbind_le_r|]; apply IH.
  - apply dbind_le_l, dbind_le_r, IH.
  - unfold aligned_depth, aligned_depthr. cbv zeta. destruct (Z.eqb _ _); [apply IH|apply Nat.le_refl].
  - unfold indented_depth, indented_depthr. cbv zeta. destruct (Z.eqb _ _); [|apply Nat.le_refl].
    apply dbind_le_l, dbind_le_r, IH.
  - apply IH.
Qed.
End MoreCalls.

(** ** A call tree is not deeper than it is large *)
Section DepthCalls.
Context {T : Type} {V : nat -> Type}.
Notation gram := (gram T V).
Variable E : env T V.
Definition under {A} (d : dm A) (m : cm A) : Prop := fst d <= fst m /\ snd d = snd m.
Lemma under_bind A B (d : dm A) (f : A -> dm B) (m : cm A) (g : A -> cm B) :
  under d m -> (forall a, under (f a) (g a)) -> under (dbind d f) (cbind m g).
Proof using.
  intros [H1 H2] H. unfold under, dbind, cbind. rewrite H2. destruct (snd m) as [a|e|]; cbn [fst snd]; [|auto|auto].
  destruct (H a) as [K1 K2]. split; [lia|exact K2].
Qed.
Lemma under_ret A (x : out A) : under (dret x) (cret x).
Proof using. split; [apply Nat.le_refl|reflexivity]. Qed.
Lemma under_nest A (d : dm A) (m : cm A) : under d m -> under (nest d) (tick m).
Proof using. intros [H1 H2]. split; [cbn; lia|exact H2]. Qed.
Lemma under_flat A B (f : A -> dm (list B)) (g : A -> cm (list B)) l : (forall a, under (f a) (g a)) ->
  under (dflat_map f l) (cflat_map g l).
Proof using.
  intros H. induction l as [|a l IH]; cbn [dflat_map cflat_map]; [apply under_ret|].
  apply under_bind; [apply H|]. intros x. apply under_bind; [apply IH|]. intros y. apply under_ret.
Qed.
Lemma under_continue A B C (rc : recr T A) ins (F : A -> nat -> ctx T -> Z -> dm (res T B))
    (G : A -> nat -> ctx T -> Z -> cm (res T B)) (merge : A -> B -> C) :
  (forall v p c r, under (F v p c r) (G v p c r)) ->
  under (continue_depth rc ins F merge) (continue_cost rc ins G merge).
Proof using.
  intros H. unfold continue_depth, continue_cost. apply under_bind; [|intros; apply under_ret].
  apply under_flat. intros a. unfold cont_one_depth, cont_one_cost. apply under_bind; [apply H|].
  intros [o|e|r]; apply under_ret.
Qed.

Theorem depth_calls n : forall A (g : gram A) s pos c, under (dfast E n g s pos c) (cfast E n g s pos c).
Proof using.
  induction n as [|n IH]; intros A g s pos c; [split; [apply Nat.le_refl|reflexivity]|].
  destruct g; cbn [dfast cfast]; try (apply under_nest; first [apply under_ret|apply IH]); try apply IH; try apply under_nest.
  - apply under_bind; [apply IH|]. intros; apply under_ret.
  - unfold alt_depth, alt_cost. apply under_bind; [apply IH|]. intros [o|e]; [apply under_ret|].
    destruct (er_con e); [apply under_ret|]. apply under_bind; [apply IH|]. intros b.
    destruct (sres_con b); [apply under_ret|]. destruct b; apply under_ret.
  - unfold bind_depth, bind_cost. apply under_bind; [apply IH|]. intros [o|e]; [|apply under_ret].
    apply under_bind; [apply IH|]. intros; apply under_ret.
  - unfold seq_depth, seq_cost. apply under_bind; [apply IH|]. intros [o|e]; [|apply under_ret].
    apply under_bind; [apply IH|]. intros; apply under_ret.
  - unfold maybe_depth, maybe_cost. apply under_bind; [apply IH|]. intros [o|e]; [apply under_ret|].
    destruct (er_con e); apply under_ret.
  - assert (M : forall k con vs pos c, under (many_depth (dfast E n g) k con vs s pos c) (many_cost (cfast E n g) k con vs s pos c)).
    { intros k. induction k as [|k IHk]; intros con vs pos' c'; [apply under_ret|].
      cbn [many_depth many_cost]. apply under_bind; [apply IH|]. intros [o|e].
      - destruct (ok_con o); [apply IHk|apply under_ret].
      - destruct (er_con e); apply under_ret. }
    apply M.
  - unfold attempt_depth, attempt_cost. apply under_bind; [apply IH|]. intros [o|e]; apply under_ret.
  - apply under_bind; [apply IH|]. intros; apply under_ret.
  - apply under_bind; [apply IH|]. intros; apply under_ret.
  - unfold aligned_depth, aligned_cost. cbv zeta. destruct (Z.eqb _ _); [apply IH|apply under_ret].
  - unfold indented_depth, indented_cost. cbv zeta. destruct (Z.eqb _ _); [|apply under_ret].
    apply under_bind; [apply IH|]. intros; apply under_ret.
Qed.

Theorem depth_calls_rec n : forall A (g : gram A) s pos c ins rem,
  under (dfull E n g s pos c ins rem) (cfull E n g s pos c ins rem).
Proof using.
  induction n as [|n IH]; intros A g s pos c ins rem; [split; [apply Nat.le_refl|reflexivity]|].
  cbn [dfull cfull]. apply under_nest.
  destruct g; try apply under_ret; try apply IH.
  - apply under_bind; [apply IH|]. intros; apply under_ret.
  - assert (R : forall la x, under (alt_recover_depth (dfull E n g1) (dfull E n g2) la x s pos c ins rem)
      (alt_recover_cost (cfull E n g1) (cfull E n g2) la x s pos c ins rem)).
    { intros la x. unfold alt_recover_depth, alt_recover_cost. destruct rem; [|apply under_ret].
      apply under_bind; [apply IH|]. intros a. apply under_bind; [apply IH|]. intros b.
      destruct a, b; apply under_ret. }
    unfold alt_depthr, alt_costr. apply under_bind; [apply IH|].
    intros [o|[la xa ca]|[reps mn la xa ca]]; [apply under_ret| |];
      (destruct ca; [apply under_ret|]; apply under_bind; [apply IH|]; intros b;
       destruct (res_con b); [apply under_ret|]; destruct b; [apply under_ret| |]; apply R).
  - unfold bind_depthr, bind_costr. apply under_bind; [apply IH|]. intros [o|e|rc]; [|apply under_ret|].
    + apply under_bind; [apply IH|]. intros; apply under_ret.
    + apply under_continue. intros; apply IH.
  - unfold seq_depthr, seq_costr. apply under_bind; [apply IH|]. intros [o|e|rc]; [|apply under_ret|].
    + apply under_bind; [apply IH|]. intros; apply under_ret.
    + apply under_continue. intros; apply IH.
  - unfold maybe_depthr, maybe_costr. apply under_bind; [apply IH|]. intros; apply under_ret.
  - assert (M : forall k con vs pos c, under (many_depthr (dfull E n g) k con vs s pos c ins) (many_costr (cfull E n g) k con vs s pos c ins)).
    { intros k. induction k as [|k IHk]; intros con vs pos' c'; [apply under_ret|].
      cbn [many_depthr many_costr]. apply under_bind; [apply IH|]. intros [o|e|rc].
      - destruct (ok_con o); [apply IHk|apply under_ret].
      - destruct (er_con e); apply under_ret.
      - apply under_continue. intros; apply under_nest, IHk. }
    apply M.
  - unfold attempt_depthr, attempt_costr. destruct rem; [apply IH|].
    apply under_bind; [apply depth_calls|]. intros [o|e]; apply under_ret.
  - apply under_bind; [apply IH|]. intros; apply under_ret.
  - apply under_bind; [apply IH|]. intros; apply under_ret.
  - unfold recover_with_depthr, recover_with_costr. destruct rem; [|apply IH]. apply under_bind; [apply IH|]. intros; apply under_ret.
  - unfold recover_with_depthr, recover_with_costr. destruct rem; [|apply IH]. apply under_bind; [apply IH|]. intros; apply under_ret.
  - apply under_bind; [apply IH|]. intros; apply under_ret.
  - unfold aligned_depthr, aligned_costr. cbv zeta. destruct (Z.eqb _ _); [apply IH|apply under_ret].
  - unfold indented_depthr, indented_costr. cbv zeta. destruct (Z.eqb _ _); [|apply under_ret].
    apply under_bind; [apply IH|]. intros; apply under_ret.
Qed.
End DepthCalls.
