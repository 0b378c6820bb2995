(** C42: equivalent parsers can replace each other inside any parser. *)
From Verif Require Export Congr Examples.
From Verif Require Import PropsLaws.

Section Sym.
Context {T : Type} {V : nat -> Type}.
Notation gram := (gram T V).

Lemma alike_sym (R R' : forall A, gram A -> gram A -> Prop) :
  (forall A p q, R A p q -> R' A q p) -> forall A p q, alike R A p q -> alike R' A q p.
Proof. intros H A p q K. destruct K; constructor; auto. Qed.

(** induction with hypotheses for the components *)
Lemma rebuilt_ind' (L : forall A, gram A -> gram A -> Prop) (E1 E2 : env T V)
    (P : forall A, gram A -> gram A -> Prop) :
  (forall A p q, L A p q -> P A p q) ->
  (forall A p q, alike P A p q -> P A p q) ->
  (forall d, P (V d) (GDelay d) (GDelay d)) ->
  (forall d q, P (V d) (E1 d) q -> P (V d) (GDelay d) q) ->
  (forall d p, P (V d) p (E2 d) -> P (V d) p (GDelay d)) ->
  forall A p q, rebuilt L E1 E2 A p q -> P A p q.
Proof.
  intros H1 H2 H3 H4 H5. fix IH 4. intros A p q H.
  destruct H as [A p q H|A p q H|d|d q H|d p H]; auto.
  apply H2. destruct H; constructor; auto.
Qed.
Lemma rebuilt_sym (L L' : forall A, gram A -> gram A -> Prop) (E1 E2 : env T V) :
  (forall A p q, L A p q -> L' A q p) ->
  forall A p q, rebuilt L E1 E2 A p q -> rebuilt L' E2 E1 A q p.
Proof.
  intros HL. apply rebuilt_ind'.
  - intros. apply rb_law. auto.
  - intros A p q H. apply rb_alike. eapply alike_sym; [|exact H]. auto.
  - intros. apply rb_delay.
  - intros. apply rb_fold. auto.
  - intros. apply rb_unfold. auto.
Qed.
Lemma rebuilt_refl (L : forall A, gram A -> gram A -> Prop) (E1 E2 : env T V) A (g : gram A) :
  rebuilt L E1 E2 A g g.
Proof. induction g; try (apply rb_alike; constructor; auto; fail). apply rb_delay. Qed.

Lemma same_simf X (E : env T V) s A (p q : gram A) n : same_upto X E p q ->
  simf X s (inb True s) (fast E n p) (fun m => fast E m q) /\
  simF X s (inb True s) (full E n p) (fun m => full E m q).
Proof.
  intros H. split.
  - intros pos c Hp. destruct (H s pos c (Hp I)) as [H1 _].
    apply (agree_apx X (fun n => fast E n p s pos c)); auto. apply fast_monotone.
  - intros pos c ins rem Hp. destruct (H s pos c (Hp I)) as [_ H1].
    apply (agree_apx X (fun n => full E n p s pos c ins rem)); auto. apply full_monotone.
Qed.

(** the general result *)
Lemma rebuilt_between X (E1 E2 : env T V) (L : forall A, gram A -> gram A -> Prop) A (g g' : gram A) :
  wf_env E1 -> wf_env E2 -> wf g -> wf g' ->
  (forall B (p q : gram B), L B p q -> same_upto X E1 p q /\ same_upto X E2 p q) ->
  (forall d, rebuilt L E1 E2 (V d) (E1 d) (E2 d)) -> rebuilt L E1 E2 A g g' ->
  same_between X E1 E2 g g'.
Proof.
  intros W1 W2 Wg Wg' HL HE Hg s pos c Hp.
  pose proof (fun n => proj2 (rebuilt_sim X E1 E2 True s (fun d _ => W1 d) L
    (fun B p q H n _ => same_simf X E2 s B p q n (proj2 (HL B p q H))) HE n) A g g' Hg (fun _ => Wg)) as S1.
  assert (HL' : forall B (p q : gram B), L B q p -> same_upto X E1 p q).
  { intros B p q H. apply same_sym. apply HL. exact H. }
  pose proof (fun n => proj2 (rebuilt_sim X E2 E1 True s (fun d _ => W2 d) (fun B p q => L B q p)
    (fun B p q H n _ => same_simf X E1 s B p q n (HL' B p q H))
    (fun d => rebuilt_sym L (fun B p q => L B q p) E1 E2 (fun _ _ _ H => H) _ _ _ (HE d)) n) A g' g
    (rebuilt_sym L (fun B p q => L B q p) E1 E2 (fun _ _ _ H => H) _ _ _ Hg) (fun _ => Wg')) as S2.
  split; [|intros ins rem]; apply apx_agree; intros n.
  - apply (S1 n). intros _; auto.
  - apply (S2 n). intros _; auto.
  - apply (S1 n). intros _; auto.
  - apply (S2 n). intros _; auto.
Qed.
End Sym.

(** ** C42  replacing any number of components of a parser [g] by equivalent
    ones, and Delays by their definitions or back, gives an equivalent parser *)
Theorem C42_replace_components :
  forall T V X (E : env T V) A (g g' : gram T V A),
  wf_env E -> wf g -> wf g' ->
  rebuilt (fun B p q => same_upto X E p q) E E A g g' -> same_upto X E g g'.
Proof.
  intros T V X E A g g' WE Wg Wg' H.
  apply (rebuilt_between X E E (fun B p q => same_upto X E p q)); auto.
  intros d. apply rebuilt_refl.
Qed.
Print Assumptions C42_replace_components.

(** Laws that hold for all Delay definitions can also be used inside recursive
    definitions *)
Theorem C42_replace_in_definitions :
  forall T V X (E1 E2 : env T V) A (g g' : gram T V A),
  wf_env E1 -> wf_env E2 -> wf g -> wf g' ->
  let law B (p q : gram T V B) := forall E, wf_env E -> same_upto X E p q in
  (forall d, rebuilt law E1 E2 (V d) (E1 d) (E2 d)) -> rebuilt law E1 E2 A g g' ->
  same_between X E1 E2 g g'.
Proof.
  intros T V X E1 E2 A g g' W1 W2 Wg Wg' law HE Hg.
  apply (rebuilt_between X E1 E2 law); auto.
Qed.
Print Assumptions C42_replace_in_definitions.

(** what this means for the user: [parse] gives the same results *)
Lemma agree_parse {T V} X (E1 E2 : env T V) A (g g' : gram T V A) s rec k get fmt :
  agree X (fun n => fast E1 n g s 0 (init_ctx get)) (fun n => fast E2 n g' s 0 (init_ctx get)) ->
  agree X (fun n => full E1 n g s 0 (init_ctx get) k (Some k)) (fun n => full E2 n g' s 0 (init_ctx get) k (Some k)) ->
  agree X (fun n => parse E1 n g s rec k get fmt) (fun n => parse E2 n g' s rec k get fmt).
Proof.
  intros H1 H2. unfold parse. apply agree_bind.
  - destruct rec; [apply full_monotone|]. unfold omap. apply mono_bind; [apply fast_monotone|intros; apply mono_const].
  - destruct rec; [apply full_monotone|]. unfold omap. apply mono_bind; [apply fast_monotone|intros; apply mono_const].
  - intros a. apply mono_const.
  - intros a. apply mono_const.
  - destruct rec; auto. unfold omap. apply agree_bind; auto; try apply fast_monotone; intros; try apply mono_const.
    apply agree_refl.
  - intros. apply agree_refl.
Qed.
Theorem C42_same_parse_results :
  forall T V X (E1 E2 : env T V) A (g g' : gram T V A) s rec k get fmt,
  same_between X E1 E2 g g' ->
  agree X (fun n => parse E1 n g s rec k get fmt) (fun n => parse E2 n g' s rec k get fmt).
Proof.
  intros T V X E1 E2 A g g' s rec k get fmt H. destruct (H s 0 (init_ctx get) (Nat.le_0_l _)) as [H1 H2].
  apply agree_parse; auto.
Qed.
Print Assumptions C42_same_parse_results.

(** ** Case: in the recursive expression grammar, [digit] is replaced by
    [digit.fmap(id)] inside the definition of Delay 0, and Delay 0 in the top
    parser is replaced by its definition *)
Definition c42_digit : ex_gram Z := GFmap ex_digit (fun v => Ret v).
Definition c42_E : env char ex_V :=
  fun _ => chainl1 (GRecoverWith (GAlt c42_digit ex_paren) 0%Z "value") ex_plus.
Definition c42_law B (p q : ex_gram B) := forall E, wf_env E -> same_upto True E p q.
Lemma c42_def d : rebuilt c42_law ex_E c42_E _ (ex_E d) (c42_E d).
Proof.
  assert (V : rebuilt c42_law ex_E c42_E _ ex_value (GRecoverWith (GAlt c42_digit ex_paren) 0%Z "value")).
  { apply rb_alike, al_with, rb_alike, al_alt.
    - apply rb_law. intros E _. apply same_sym. apply C18_fmap_id.
    - apply rebuilt_refl. }
  apply rb_alike, al_fmap, rb_alike, al_seq; [exact V|].
  apply rb_alike, al_many, rb_alike, al_seq; [apply rebuilt_refl|exact V].
Qed.
Example C42_case : same_between True ex_E c42_E ex_top (seql ex_expr GEof).
Proof.
  apply C42_replace_in_definitions; [apply ex_wf_E|intros d; solve_gall|apply ex_wf|solve_gall|apply c42_def|].
  apply rb_alike, al_seq; [|apply rebuilt_refl].
  apply (rb_unfold c42_law ex_E c42_E 0). apply rebuilt_refl.
Qed.
