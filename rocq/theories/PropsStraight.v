(** Properties C58 and C60: without repetition (many, and sep_by and the chains, which
    are made with it) and without Delay the work of recovery does not depend on the
    input. *)
From Verif Require Import CostSpec CostFull DepthFull Straight RepCount Examples PropsTotal PropsCostFull PropsRepCount.

(** one bound for the calls made by all such parsers of a size, whatever the input, the
    allowance and the callbacks, and also if the run raises *)
Theorem C58_no_repetition :
  forall w, exists k, forall T V (E : env T V) A (g : gram T V A), size_le g w -> straight g ->
  forall s mi get fmt n,
    fst (parse_counted_rec E n g s mi get fmt) <= k /\
    forall rc, snd (parse_counted_rec E n g s mi get fmt) = Ret (ResultWrapper (RRec rc) fmt) -> List.length (rc_reps rc) <= 2 * k.
Proof.
  intros w. exists (straight_calls w). intros T V E A g Hw Hg s mi get fmt n.
  assert (B : fst (parse_counted_rec E n g s mi get fmt) <= straight_calls w) by (apply straight_cost; auto).
  split; [exact B|]. intros rc Hrc. apply C58_repairs_at_most in Hrc. lia.
Qed.
Print Assumptions C58_no_repetition.

(** and the calls never nest more deeply than the parser is built *)
Theorem C60_recovery_no_repetition :
  forall T V (E : env T V) A (g : gram T V A) w, size_le g w -> straight g ->
  forall s mi get fmt n, fst (parse_nested_rec E n g s mi get fmt) <= w.
Proof. intros. apply straight_depth; auto. Qed.
Print Assumptions C60_recovery_no_repetition.

(** a then b, as in the parser with exponentially many repairs, without the repetition *)
Theorem C58_case_no_repetition :
  size_le ab_p 3 /\ straight ab_p /\
  (forall s mi get fmt n, fst (parse_nested_rec ex_E n ab_p s mi get fmt) <= 3) /\
  fst (parse_nested_rec ex_E 150 ab_p (aab 6) 5 scannerless_get_loc linecol_fmt) = 2 /\
  fst (parse_counted_rec ex_E 150 ab_p (aab 6) 5 scannerless_get_loc linecol_fmt) = 3.
Proof.
  assert (S3 : size_le ab_p 3) by (exists 1, 1; cbn; lia).
  assert (St : straight ab_p) by solve_gall.
  split; [exact S3|]. split; [exact St|].
  split; [intros; apply C60_recovery_no_repetition; auto|]. split; vm_compute; reflexivity.
Qed.
