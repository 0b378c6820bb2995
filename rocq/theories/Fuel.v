(** Fuel monotonicity: once a run finishes (returns or raises), more fuel does
    not change it.  Hence "the result of the parser" is well defined:
    [fast_run]/[full_run] relate a parser and an input to its outcome. *)
From Verif Require Export Lexer.

Definition lef {A} (a b : out A) : Prop := a = NoFuel \/ a = b.

Lemma lef_refl {A} (a : out A) : lef a a.
Proof. right; reflexivity. Qed.
#[export] Hint Resolve lef_refl : lef.

Lemma lef_nofuel {A} (b : out A) : lef NoFuel b.
Proof. left; reflexivity. Qed.
#[export] Hint Resolve lef_nofuel : lef.

Lemma lef_bind {A B} (m m' : out A) (f f' : A -> out B) :
  lef m m' -> (forall x, lef (f x) (f' x)) -> lef (obind m f) (obind m' f').
Proof.
  intros [->| ->] Hf; [left; reflexivity|].
  destruct m' as [a|e|]; simpl; auto using lef_refl.
Qed.

Lemma lef_flat_mapM {A B} (f f' : A -> out (list B)) l :
  (forall x, lef (f x) (f' x)) -> lef (flat_mapM f l) (flat_mapM f' l).
Proof.
  intros H; induction l as [|x l IH]; simpl; auto with lef.
  apply lef_bind; [apply H|intros y]. apply lef_bind; [exact IH|auto with lef].
Qed.

Lemma lef_eq {A} (m m' : out A) r : lef m m' -> m = r -> r <> NoFuel -> m' = r.
Proof. intros [->| ->]; congruence. Qed.

Section Fuel.
Context {T : Type} {V : nat -> Type}.
Implicit Types (E : env T V) (s : list T).

Ltac go :=
  repeat (first
    [ apply lef_refl
    | apply lef_nofuel
    | solve [auto]
    | apply lef_bind; [|intros]
    | match goal with |- lef (match ?x with _ => _ end) (match ?x with _ => _ end) =>
        destruct x end
    | match goal with |- lef (if ?x then _ else _) (if ?x then _ else _) =>
        destruct x end
    | apply lef_flat_mapM; intros ]).

Lemma lef_continue_parse {A B C} (ra : recr T A) ins
    (f f' : A -> nat -> ctx T -> Z -> out (res T B)) (merge : A -> B -> C) :
  (forall v p c r, lef (f v p c r) (f' v p c r)) ->
  lef (continue_parse ra ins f merge) (continue_parse ra ins f' merge).
Proof. intros H. unfold continue_parse, cont_one. go. Qed.

Lemma lef_many_fast {A} (p p' : pfast T A) n m s :
  (forall pos c, lef (p s pos c) (p' s pos c)) -> n <= m ->
  forall con v pos c,
  lef (many_fast p n con v s pos c) (many_fast p' m con v s pos c).
Proof.
  intros H. revert m.
  induction n as [|n IH]; intros [|m] Hnm con v pos c; simpl;
    [go|go|exfalso; lia|].
  apply lef_bind; [apply H|intros r]. destruct r as [o|e]; go.
  apply IH; lia.
Qed.

Lemma lef_many_full {A} (p p' : pfull T A) n m s :
  (forall pos c ins rem, lef (p s pos c ins rem) (p' s pos c ins rem)) -> n <= m ->
  forall con v pos c ins,
  lef (many_full p n con v s pos c ins) (many_full p' m con v s pos c ins).
Proof.
  intros H. revert m.
  induction n as [|n IH]; intros [|m] Hnm con v pos c ins; simpl;
    [go|go|exfalso; lia|].
  apply lef_bind; [apply H|intros r]. destruct r as [o|e|rc]; go.
  - apply IH; lia.
  - apply IH; lia.
Qed.

Lemma fast_lef E n : forall m, n <= m -> forall A (g : gram T V A) s pos c,
  lef (fast E n g s pos c) (fast E m g s pos c).
Proof.
  induction n as [|n IH]; intros [|m] Hnm A g s pos c; simpl;
    [go|go|exfalso; lia|].
  assert (H : forall A (g : gram T V A) s pos c,
    lef (fast E n g s pos c) (fast E m g s pos c)) by (intros; apply IH; lia).
  assert (Hn : n <= m) by lia.
  destruct g;
    unfold fmap_fast, alt_fast, bind_fast, seq_fast, maybe_fast, attempt_fast,
      label_fast, recover_fast, recover_with_fast, block_fast, aligned_fast,
      indented_fast; cbv zeta; try solve [go].
  apply lef_many_fast; auto.
Qed.

Lemma full_lef E n : forall m, n <= m -> forall A (g : gram T V A) s pos c ins rem,
  lef (full E n g s pos c ins rem) (full E m g s pos c ins rem).
Proof.
  induction n as [|n IH]; intros [|m] Hnm A g s pos c ins rem; simpl;
    [go|go|exfalso; lia|].
  assert (H : forall A (g : gram T V A) s pos c ins rem,
    lef (full E n g s pos c ins rem) (full E m g s pos c ins rem))
    by (intros; apply IH; lia).
  assert (Hn : n <= m) by lia.
  destruct g;
    unfold fmap_full, alt_full, alt_recover, bind_full, seq_full, maybe_full, attempt_full,
      label_full, recover_full, recover_with_full, block_full, aligned_full,
      indented_full; cbv zeta; try solve [go].
  - apply lef_many_full; auto.
  - destruct rem; go. apply fast_lef; auto.
Qed.

Theorem fast_mono E n m A (g : gram T V A) s pos c r :
  fast E n g s pos c = r -> r <> NoFuel -> n <= m -> fast E m g s pos c = r.
Proof. intros H Hr Hnm. eapply lef_eq; eauto. apply fast_lef; auto. Qed.

Theorem full_mono E n m A (g : gram T V A) s pos c ins rem r :
  full E n g s pos c ins rem = r -> r <> NoFuel -> n <= m ->
  full E m g s pos c ins rem = r.
Proof. intros H Hr Hnm. eapply lef_eq; eauto. apply full_lef; auto. Qed.

(** Two finished runs with different fuel agree. *)
Theorem fast_agree E n m A (g : gram T V A) s pos c :
  fast E n g s pos c <> NoFuel -> fast E m g s pos c <> NoFuel ->
  fast E n g s pos c = fast E m g s pos c.
Proof.
  intros Hn Hm. destruct (Nat.le_ge_cases n m) as [H|H].
  - symmetry. eapply fast_mono; eauto.
  - eapply fast_mono; eauto.
Qed.

Theorem full_agree E n m A (g : gram T V A) s pos c ins rem :
  full E n g s pos c ins rem <> NoFuel -> full E m g s pos c ins rem <> NoFuel ->
  full E n g s pos c ins rem = full E m g s pos c ins rem.
Proof.
  intros Hn Hm. destruct (Nat.le_ge_cases n m) as [H|H].
  - symmetry. eapply full_mono; eauto.
  - eapply full_mono; eauto.
Qed.

Theorem parse_agree E n m A (g : gram T V A) s rec mi get fmt :
  parse E n g s rec mi get fmt <> NoFuel -> parse E m g s rec mi get fmt <> NoFuel ->
  parse E n g s rec mi get fmt = parse E m g s rec mi get fmt.
Proof.
  assert (Hlef : forall a b, a <= b ->
    lef (parse E a g s rec mi get fmt) (parse E b g s rec mi get fmt)).
  { intros a b Hab. unfold parse. destruct rec; apply lef_bind; intros;
      auto with lef; [apply full_lef; auto|unfold omap; apply lef_bind; intros;
      auto with lef; apply fast_lef; auto]. }
  intros Hn Hm. destruct (Nat.le_ge_cases n m) as [H|H].
  - destruct (Hlef _ _ H); congruence.
  - destruct (Hlef _ _ H); congruence.
Qed.
End Fuel.
