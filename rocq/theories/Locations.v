(** The location functions compute true locations. *)
From Verif Require Export LocSpec EditSpec.

Lemma line_run_app a b :
  line_run (a ++ b) =
  if Nat.eqb (List.length (filter newline a)) 0 then List.length a + line_run b
  else line_run a.
Proof.
  induction a as [|x a IH]; simpl; auto.
  destruct (newline x); simpl; auto. rewrite IH.
  destruct (Nat.eqb _ _); reflexivity.
Qed.

Lemma filter_rev_len {X} (f : X -> bool) l :
  List.length (filter f (rev l)) = List.length (filter f l).
Proof.
  induction l as [|x l IH]; simpl; auto.
  rewrite filter_app, app_length, IH. simpl. destruct (f x); simpl; lia.
Qed.

Lemma line_run_snoc_rev l x :
  line_run (rev (l ++ [x])) = if newline x then 0 else S (line_run (rev l)).
Proof. rewrite rev_app_distr. reflexivity. Qed.

Lemma rfind_from_spec l : forall i acc,
  rfind_from l i acc =
  if Nat.eqb (List.length (filter newline l)) 0 then acc
  else (i + Z.of_nat (List.length l) - 1 - Z.of_nat (line_run (rev l)))%Z.
Proof.
  induction l as [|x l IH]; intros i acc; cbn [rfind_from filter]; auto.
  change (isnl x) with (newline x).
  rewrite IH. cbn [rev]. rewrite line_run_app, filter_rev_len, rev_length.
  destruct (newline x) eqn:Hx; cbn [List.length line_run].
  - rewrite Hx. destruct (Nat.eqb_spec (List.length (filter newline l)) 0) as [H|H]; simpl Nat.eqb; cbn iota.
    + lia.
    + lia.
  - destruct (Nat.eqb_spec (List.length (filter newline l)) 0) as [H|H]; [reflexivity|]. lia.
Qed.

Lemma firstn_slice {X} (s : list X) p q : p <= q -> firstn q s = firstn p s ++ slice s p q.
Proof.
  intros H. replace (firstn q s) with (slice s 0 q)
    by (unfold slice; rewrite Nat.sub_0_r; reflexivity).
  replace (firstn p s) with (slice s 0 p)
    by (unfold slice; rewrite Nat.sub_0_r; reflexivity).
  symmetry. apply slice_app; lia.
Qed.

Lemma true_line_step s p q : p <= q ->
  true_line s q = true_line s p + count_nl s p q.
Proof.
  intros H. unfold true_line, count_nl.
  rewrite (firstn_slice s p q H), filter_app, app_length. reflexivity.
Qed.

Lemma true_col_step s p q : p <= q -> q <= List.length s ->
  Z.of_nat (true_col s q) =
  if Nat.eqb (count_nl s p q) 0 then (Z.of_nat (true_col s p) + (Z.of_nat q - Z.of_nat p))%Z
  else (Z.of_nat q - rfind_nl s p q - 1)%Z.
Proof.
  intros H Hq. unfold true_col, rfind_nl. rewrite (firstn_slice s p q H), rev_app_distr.
  rewrite line_run_app, filter_rev_len, rev_length, slice_len by auto.
  rewrite rfind_from_spec. unfold count_nl. change isnl with newline. rewrite slice_len by auto.
  destruct (Nat.eqb _ _); lia.
Qed.

Lemma scannerless_step s p q : p <= q <= List.length s ->
  scannerless_get_loc (true_loc s p) s q = true_loc s q.
Proof.
  intros [H Hq]. unfold scannerless_get_loc, true_loc. cbn [loc_pos loc_line loc_col].
  rewrite Nat2Z.id. rewrite (true_line_step s p q H), (true_col_step s p q H Hq).
  destruct (Nat.eqb_spec (count_nl s p q) 0) as [E|E]; f_equal; lia.
Qed.

Lemma true_loc_0 s : true_loc s 0 = Loc 0 0 0.
Proof. reflexivity. Qed.

Theorem scannerless_cohere s : cohere scannerless_get_loc s (true_loc s).
Proof.
  constructor.
  - intros q Hq. rewrite <- (true_loc_0 s). apply scannerless_step. lia.
  - intros p q H. apply scannerless_step; auto.
Qed.
Theorem scannerless_exact s : exactpos s (true_loc s).
Proof. split; auto. Qed.

Definition default_locof (p : nat) : loc := Loc (Z.of_nat p) 0 0.
Theorem default_cohere {T} (s : list T) : cohere default_get_loc s default_locof.
Proof. constructor; auto. Qed.
Theorem default_exact {T} (s : list T) : exactpos s default_locof.
Proof. split; auto. Qed.

(** lexer.parse: the location depends on the position only, but its [pos] field
    is a source offset, not the position *)
Theorem lexer_cohere (s : list token) : cohere lexer_get_loc s (loc_from_stream s).
Proof. constructor; auto. Qed.

(** The lexer's own bookkeeping *)
Lemma lex_end_step src p e : p <= e <= List.length src ->
  lex_end_loc src p e (true_loc src p) = true_loc src e.
Proof.
  intros [H He]. unfold lex_end_loc, true_loc. cbn [loc_pos loc_line loc_col].
  rewrite (true_line_step src p e H), (true_col_step src p e H He).
  destruct (Nat.eqb_spec (count_nl src p e) 0) as [E|E]; f_equal; lia.
Qed.
