(** Property C58: the work of recovery bounds what it keeps. *)
From Verif Require Import CostFull RepCount Examples PropsTotal PropsCostFull.

(** at most two repairs per call of a parse function, whatever the parser, the input,
    the allowance and the callbacks *)
Theorem C58_repairs_at_most :
  forall T V (E : env T V) A (g : gram T V A) s mi get fmt n rc,
  snd (parse_counted_rec E n g s mi get fmt) = Ret (ResultWrapper (RRec rc) fmt) ->
  List.length (rc_reps rc) <= 2 * fst (parse_counted_rec E n g s mi get fmt).
Proof.
  intros T V E A g s mi get fmt n rc H. unfold parse_counted_rec in *. cbn [fst snd] in *.
  pose proof (wt_full E n A g s 0 (init_ctx get) mi (Some mi)) as W.
  destruct (snd (cfull E n g s 0 (init_ctx get) mi (Some mi))) as [r| |] eqn:Er; simpl in H; try discriminate.
  injection H as ->. specialize (W _ Er). cbn [weight] in W. lia.
Qed.
Print Assumptions C58_repairs_at_most.

(** the bound is reached: one call, an insertion and a skip *)
Theorem C58_case_repairs : exists rc,
  snd (parse_counted_rec ex_E 150 (ex_sym "a") (ex_str "xa") 5 scannerless_get_loc linecol_fmt)
    = Ret (ResultWrapper (RRec rc) linecol_fmt) /\
  List.length (rc_reps rc) = 2 /\
  fst (parse_counted_rec ex_E 150 (ex_sym "a") (ex_str "xa") 5 scannerless_get_loc linecol_fmt) = 1.
Proof. eexists. split; [vm_compute; reflexivity|]. split; vm_compute; reflexivity. Qed.
