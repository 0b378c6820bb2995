(** The lexer: specification of a lexing run and proofs. *)
From Verif Require Export ApiProofs.

(** ** Specification *)
(** A piece is a match of the specification: start, end, named group. *)
Definition piece : Type := (nat * nat * option (string * list char))%type.

(** [lex_run spec src p l q]: starting at [p], the matches [l] follow each other
    without gap or overlap and end at [q]. *)
Inductive lex_run (spec : lexspec) (src : list char) : nat -> list piece -> nat -> Prop :=
| lr_nil p : lex_run spec src p [] p
| lr_cons p e g l q :
    p < List.length src -> spec src p = Some (e, g) -> lex_run spec src e l q ->
    lex_run spec src p ((p, e, g) :: l) q.

(** Assumption about the regular expression engine: a match found at [p] ends
    inside the source, not before [p]. *)
Definition lex_wf (spec : lexspec) (src : list char) : Prop :=
  forall p e g, p <= List.length src -> spec src p = Some (e, g) -> p <= e <= List.length src.

(** the token of a piece, if it is named, with true locations *)
Definition piece_token (src : list char) (x : piece) : list token :=
  match x with
  | (p, e, Some (kind, value)) => [Token kind value (true_loc src p) (true_loc src e)]
  | (_, _, None) => []
  end.

(** ** Proofs *)
Section Lex.
Variable spec : lexspec.
Variable src : list char.
Hypothesis Hwf : lex_wf spec src.

Lemma lex_run_le p l q : lex_run spec src p l q -> p <= List.length src ->
  p <= q <= List.length src.
Proof.
  induction 1 as [p|p e g l q Hp Hs Hr IH]; intros Hl; [lia|].
  pose proof (Hwf _ _ _ Hl Hs). lia.
Qed.

Lemma lex_run_snoc p l q e g :
  lex_run spec src p l q -> q < List.length src -> spec src q = Some (e, g) ->
  lex_run spec src p (l ++ [(q, e, g)]) e.
Proof.
  induction 1; intros Hq Hs; simpl.
  - econstructor; eauto. constructor.
  - econstructor; eauto.
Qed.

Lemma lex_run_tiles p l q : lex_run spec src p l q -> p <= List.length src ->
  List.concat (map (fun '(a, b, _) => slice src a b) l) = slice src p q.
Proof.
  induction 1 as [p|p e g l q Hp Hs Hr IH]; intros Hl; simpl.
  - rewrite slice_nil. reflexivity.
  - pose proof (Hwf _ _ _ Hl Hs). rewrite IH by lia.
    apply slice_app; [lia|]. pose proof (lex_run_le _ _ _ Hr). lia.
Qed.

(** the loop, started anywhere *)
Lemma lex_loop_ok n : forall p acc r,
  p <= List.length src ->
  lex_loop spec src n p (true_loc src p) acc = Ret r ->
  exists l q, lex_run spec src p l q /\
    match r with
    | LexOk toks => q = List.length src /\ toks = acc ++ flat_map (piece_token src) l
    | LexErr lo => q < List.length src /\ spec src q = None /\ lo = true_loc src q
    end.
Proof.
  induction n as [|n IH]; cbn [lex_loop]; intros p acc r Hp H; [discriminate|].
  destruct (Nat.ltb_spec p (List.length src)) as [Hl|Hl].
  - destruct (spec src p) as [[e g]|] eqn:Hs.
    + pose proof (Hwf _ _ _ Hp Hs) as He. cbv zeta in H. rewrite lex_end_step in H by lia.
      apply IH in H as (l & q & Hr & Hres); [|lia].
      exists ((p, e, g) :: l), q. split; [econstructor; eauto|].
      destruct r as [toks|lo]; auto. destruct Hres as [-> ->]. split; auto.
      destruct g as [[k v]|]; simpl; [rewrite <- app_assoc|]; reflexivity.
    + injection H as <-. exists [], p. split; [constructor|auto].
  - injection H as <-. exists [], p. split; [constructor|]. simpl. rewrite app_nil_r.
    split; auto. lia.
Qed.

Lemma lex_loop_complete p l q : lex_run spec src p l q -> forall acc,
  p <= List.length src ->
  (q = List.length src -> exists n,
     lex_loop spec src n p (true_loc src p) acc =
     Ret (LexOk (acc ++ flat_map (piece_token src) l))) /\
  (q < List.length src -> spec src q = None -> exists n,
     lex_loop spec src n p (true_loc src p) acc = Ret (LexErr (true_loc src q))).
Proof.
  induction 1 as [p|p e g l q Hp Hs Hr IH]; intros acc Hl.
  - split.
    + intros Hq. exists 1. cbn [lex_loop]. destruct (Nat.ltb_spec p (List.length src)); [lia|].
      simpl. rewrite app_nil_r. reflexivity.
    + intros Hq Hn. exists 1. cbn [lex_loop]. destruct (Nat.ltb_spec p (List.length src)); [|lia].
      rewrite Hn. reflexivity.
  - pose proof (Hwf _ _ _ Hl Hs) as He.
    destruct (IH (acc ++ piece_token src (p, e, g))) as [I1 I2]; [lia|].
    assert (Hstep : forall n, lex_loop spec src (S n) p (true_loc src p) acc =
      lex_loop spec src n e (true_loc src e) (acc ++ piece_token src (p, e, g))).
    { intros n. cbn [lex_loop]. destruct (Nat.ltb_spec p (List.length src)); [|lia].
      rewrite Hs. cbv zeta. rewrite lex_end_step by lia.
      destruct g as [[k v]|]; simpl; [|rewrite app_nil_r]; reflexivity. }
    split.
    + intros Hq. destruct (I1 Hq) as [n Hn]. exists (S n). rewrite Hstep, Hn.
      simpl. rewrite <- app_assoc. reflexivity.
    + intros Hq Hno. destruct (I2 Hq Hno) as [n Hn]. exists (S n). rewrite Hstep, Hn. reflexivity.
Qed.

Lemma lex_loop_diverges p l q g : lex_run spec src p l q -> forall lo acc n,
  q < List.length src -> spec src q = Some (q, g) ->
  lex_loop spec src n p lo acc = NoFuel.
Proof.
  induction 1 as [p|p e g' l q Hp Hs Hr IH]; intros lo acc n Hq Hno.
  - revert lo acc. induction n as [|n IHn]; intros lo acc; cbn [lex_loop]; auto.
    destruct (Nat.ltb_spec p (List.length src)); [|lia]. rewrite Hno. cbv zeta. apply IHn.
  - destruct n as [|n]; cbn [lex_loop]; auto.
    destruct (Nat.ltb_spec p (List.length src)); [|lia]. rewrite Hs. cbv zeta. auto.
Qed.

Lemma lex_loop_terminates k : forall p lo acc,
  p <= List.length src -> List.length src - p < k ->
  (forall l q g, lex_run spec src p l q -> q < List.length src -> spec src q <> Some (q, g)) ->
  lex_loop spec src k p lo acc <> NoFuel.
Proof.
  induction k as [|k IH]; cbn [lex_loop]; intros p lo acc Hp Hk Hno; [lia|].
  destruct (Nat.ltb_spec p (List.length src)) as [Hl|Hl]; [|discriminate].
  destruct (spec src p) as [[e g]|] eqn:Hs; [|discriminate]. cbv zeta.
  pose proof (Hwf _ _ _ Hp Hs) as He.
  assert (e <> p) by (intros ->; apply (Hno [] p g); [constructor|auto|auto]).
  apply IH; try lia. intros l q g' Hr Hq. apply (Hno ((p, e, g) :: l) q g'); auto.
  econstructor; eauto.
Qed.
End Lex.

(** ** lexer.parse *)

(** [l] is the location of position [p] of the token stream [s] *)
Definition token_loc (s : list token) (p : nat) (l : loc) : Prop :=
  (exists t, nth_error s p = Some t /\ l = tk_start t) \/
  (p = List.length s /\ exists s' t, s = s' ++ [t] /\ l = tk_end t) \/
  (s = [] /\ p = 0 /\ l = Loc 0 0 0).

Lemma loc_from_stream_spec s p : p <= List.length s -> token_loc s p (loc_from_stream s p).
Proof.
  intros Hp. unfold loc_from_stream. destruct (nth_error s p) as [t|] eqn:Hn.
  - left. eauto.
  - apply nth_error_None in Hn. right. destruct (rev s) as [|t s'] eqn:Hr.
    + right. apply (f_equal (@rev _)) in Hr. rewrite rev_involutive in Hr. simpl in Hr. subst s.
      simpl in Hp. assert (p = 0) by lia. subst. auto.
    + left. split; [lia|]. exists (rev s'), t. split; auto.
      apply (f_equal (@rev _)) in Hr. rewrite rev_involutive in Hr. exact Hr.
Qed.
Lemma token_loc_unique s p l l' : token_loc s p l -> token_loc s p l' -> l = l'.
Proof.
  assert (Hlast : forall (a b : list token) x y, a ++ [x] = b ++ [y] -> x = y).
  { intros a b x y H. apply app_inj_tail in H. tauto. }
  intros [(t & H1 & H2)|[(H1 & s1 & t & H2 & H3)|(H1 & H2 & H3)]]
         [(t' & K1 & K2)|[(K1 & s2 & t' & K2 & K3)|(K1 & K2 & K3)]]; subst; auto.
  - congruence.
  - exfalso. assert (nth_error (s2 ++ [t']) (List.length (s2 ++ [t'])) = None)
      by (apply nth_error_None; lia). congruence.
  - simpl in *; discriminate.
  - exfalso. assert (nth_error (s1 ++ [t]) (List.length (s1 ++ [t])) = None)
      by (apply nth_error_None; lia). congruence.
  - f_equal. eauto.
  - destruct s1; discriminate.
  - discriminate.
  - destruct s2; discriminate.
Qed.
