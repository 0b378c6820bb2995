(** Properties C58 and C60: whatever the input, a parse with recovery makes at least
    the calls of one without, nested at least as deeply; and calls never nest more
    deeply than there are calls. *)
From Verif Require Import MoreCalls Examples PropsTotal.

(** for every parser, input and allowance, and also if the run raises or does not end
    within the fuel *)
Theorem C58_never_fewer :
  forall T V (E : env T V) A (g : gram T V A) s mi get fmt n,
  fst (parse_counted E n g s get fmt) <= fst (parse_counted_rec E n g s mi get fmt).
Proof. intros. apply cost_more. Qed.
Print Assumptions C58_never_fewer.

Theorem C60_never_shallower :
  forall T V (E : env T V) A (g : gram T V A) s mi get fmt n,
  fst (parse_nested E n g s get fmt) <= fst (parse_nested_rec E n g s mi get fmt).
Proof. intros. apply depth_more. Qed.
Print Assumptions C60_never_shallower.

Theorem C60_at_most_calls :
  forall T V (E : env T V) A (g : gram T V A) s mi get fmt n,
  fst (parse_nested E n g s get fmt) <= fst (parse_counted E n g s get fmt) /\
  fst (parse_nested_rec E n g s mi get fmt) <= fst (parse_counted_rec E n g s mi get fmt).
Proof. intros. split; [apply depth_calls|apply depth_calls_rec]. Qed.
Print Assumptions C60_at_most_calls.

(** the expression grammar on [1+(2], which is rejected *)
Theorem C58_case_never_fewer : let s := ex_str "1+(2" in
  (exists e, parse ex_E 150 ex_top s false 5 scannerless_get_loc linecol_fmt = Ret (ResultWrapper (RErr e) linecol_fmt)) /\
  fst (parse_counted ex_E 150 ex_top s scannerless_get_loc linecol_fmt) = 32 /\
  fst (parse_counted_rec ex_E 150 ex_top s 5 scannerless_get_loc linecol_fmt) = 40 /\
  fst (parse_nested ex_E 150 ex_top s scannerless_get_loc linecol_fmt) = 16 /\
  fst (parse_nested_rec ex_E 150 ex_top s 5 scannerless_get_loc linecol_fmt) = 18.
Proof. intros s. split; [eexists; vm_compute; reflexivity|]. repeat (split; [vm_compute; reflexivity|]). vm_compute. reflexivity. Qed.
