(** Property C59: callbacks with side effects.  The state that the callbacks share is
    never saved or restored; with error recovery switched on a valid input still gives
    the same value, the same exceptions and the same final state as without, and an
    invalid input only has further effects after those of the plain parse. *)
From Verif Require Import StatefulSim Examples.

(** ** Without effects this is the model of the other properties *)
Theorem C59_pure_callbacks :
  forall St T V (E : env T V) n A (g : gram T V A) s rec mi get fmt (w : St),
  sparse (lift_env E) n (lift_gram g) s rec mi get fmt w = (w, parse E n g s rec mi get fmt).
Proof.
  intros. unfold sparse, parse. destruct rec.
  - unfold sbind. rewrite same_full. destruct (full _ _ _ _ _ _ _ _); reflexivity.
  - unfold sbind. rewrite same_fast. destruct (fast _ _ _ _ _ _) as [[o|e]|e|]; reflexivity.
Qed.
Print Assumptions C59_pure_callbacks.

(** ** The outcome and the final state do not depend on the fuel *)
Theorem C59_fuel_independent :
  forall St T V (E : senv St T V) n m A (g : sgram St T V A) s rec mi get fmt w,
  snd (sparse E n g s rec mi get fmt w) <> NoFuel -> snd (sparse E m g s rec mi get fmt w) <> NoFuel ->
  sparse E n g s rec mi get fmt w = sparse E m g s rec mi get fmt w.
Proof.
  intros * Hn Hm. destruct (Nat.le_ge_cases n m) as [H|H].
  - destruct (sparse_lef E n m A g s rec mi get fmt H w); congruence.
  - destruct (sparse_lef E m n A g s rec mi get fmt H w); congruence.
Qed.
Print Assumptions C59_fuel_independent.

Section Main.
Context {St T : Type} {V : nat -> Type} (R : St -> St -> Prop).
Hypothesis Rre : is_preorder R.
(** the relation of the two runs at the level of [parse] *)
Lemma sparse_sim (E : senv St T V) n A (g : sgram St T V A) s mi mi' get fmt w :
  env_moves R E -> callbacks_move R g ->
  match sparse E n g s false mi get fmt w with
  | (w', Ret r) =>
      (exists v, unwrap r false = Returns v /\
         exists r', sparse E n g s true mi' get fmt w = (w', Ret r') /\ unwrap r' false = Returns v) \/
      ((exists errs, unwrap r false = Raises errs) /\
       R w' (fst (sparse E n g s true mi' get fmt w)) /\
       forall r', snd (sparse E n g s true mi' get fmt w) = Ret r' -> exists errs, unwrap r' false = Raises errs)
  | (w', Raise e) => sparse E n g s true mi' get fmt w = (w', Raise e)
  | (w', NoFuel) => sparse E n g s true mi' get fmt w = (w', NoFuel)
  end.
Proof.
  intros HE Hg. unfold sparse.
  pose proof (ssim_main R Rre E n HE A g s 0 (init_ctx get) mi' (Some mi') w Hg) as H.
  unfold ssim in H. unfold sbind.
  destruct (sfast E n g s 0 (init_ctx get) w) as [w1 [[o|e]|x|]]; simpl in H |- *.
  - left. exists (ok_val o). split; [reflexivity|]. rewrite H. eexists; split; reflexivity.
  - right. split; [eexists; reflexivity|]. destruct H as [HR H].
    destruct (sfull E n g s 0 (init_ctx get) mi' (Some mi') w) as [w2 [r|x|]]; simpl in *.
    + split; [exact HR|]. intros r' Hr. injection Hr as <-. specialize (H r eq_refl).
      destruct r as [o|e'|rc]; simpl in H; [contradiction|eexists; reflexivity|].
      unfold unwrap; simpl. destruct (rc_reps rc); eexists; reflexivity.
    + split; [exact HR|discriminate].
    + split; [exact HR|discriminate].
  - rewrite H. reflexivity.
  - rewrite H. reflexivity.
Qed.
End Main.

(** ** A valid input: same value, same final state *)
Theorem C59_valid_input :
  forall St T V (E : senv St T V) n A (g : sgram St T V A) s mi mi' get fmt w w' v,
  (exists r, sparse E n g s false mi get fmt w = (w', Ret r) /\ unwrap r false = Returns v) <->
  (exists r, sparse E n g s true mi' get fmt w = (w', Ret r) /\ unwrap r false = Returns v).
Proof.
  intros *.
  pose proof (sparse_sim (fun _ _ => True) (conj (fun _ => I) (fun _ _ _ _ _ => I)) E n A g s mi mi' get fmt w
    (fun d => move_top (E d)) (move_top g)) as H.
  split.
  - intros (r & H1 & H2). rewrite H1 in H. destruct H as [(u & K1 & r' & K2 & K3)|((errs & K) & _)]; [|congruence].
    exists r'. split; congruence.
  - intros (r & H1 & H2). destruct (sparse E n g s false mi get fmt w) as [w0 [r0|x|]].
    + destruct H as [(u & K1 & r' & K2 & K3)|(_ & _ & K)].
      * exists r0. split; congruence.
      * destruct (K r) as (errs & K'); [rewrite H1; reflexivity|]. congruence.
    + congruence.
    + congruence.
Qed.
Print Assumptions C59_valid_input.

(** ** An exception of the plain parse is raised with recovery too, in the same state *)
Theorem C59_same_exceptions :
  forall St T V (E : senv St T V) n A (g : sgram St T V A) s mi mi' get fmt w w' e,
  sparse E n g s false mi get fmt w = (w', Raise e) ->
  sparse E n g s true mi' get fmt w = (w', Raise e).
Proof.
  intros * H0.
  pose proof (sparse_sim (fun _ _ => True) (conj (fun _ => I) (fun _ _ _ _ _ => I)) E n A g s mi mi' get fmt w
    (fun d => move_top (E d)) (move_top g)) as H.
  rewrite H0 in H. exact H.
Qed.
Print Assumptions C59_same_exceptions.

(** ** An invalid input is reported, and what recovery does to the state comes after the
    effects of the plain parse: any preorder that all callbacks respect relates the
    state before to the state of the plain parse, and that to the state with recovery *)
Theorem C59_invalid_input :
  forall St T V (R : St -> St -> Prop) (E : senv St T V) n A (g : sgram St T V A) s mi mi' get fmt w w' r errs,
  is_preorder R -> env_moves R E -> callbacks_move R g ->
  sparse E n g s false mi get fmt w = (w', Ret r) -> unwrap r false = Raises errs ->
  R w w' /\ R w' (fst (sparse E n g s true mi' get fmt w)) /\
  forall r', snd (sparse E n g s true mi' get fmt w) = Ret r' -> exists errs', unwrap r' false = Raises errs'.
Proof.
  intros * HR HE Hg H0 Hu.
  pose proof (sparse_sim R HR E n A g s mi mi' get fmt w HE Hg) as H. rewrite H0 in H.
  destruct H as [(u & K1 & _)|(_ & K)]; [congruence|]. split; [|exact K].
  assert (M : moves R (sparse E n g s false mi get fmt)).
  { unfold sparse. apply mv_bind; auto; [|intros; apply mv_lift; auto].
    apply mv_bind; auto; [|intros; apply mv_lift; auto]. apply mv_fast; auto. }
  specialize (M w). rewrite H0 in M. exact M.
Qed.
Print Assumptions C59_invalid_input.

(** callbacks that only add entries to a log: the log of the recovering parse starts with
    the log of the plain parse *)
Definition logs {X} (a b : list X) : Prop := exists l, b = a ++ l.
Corollary C59_log :
  forall X T V (E : senv (list X) T V) n A (g : sgram (list X) T V A) s mi mi' get fmt w,
  env_moves logs E -> callbacks_move logs g ->
  snd (sparse E n g s false mi get fmt w) <> NoFuel ->
  exists l l', fst (sparse E n g s false mi get fmt w) = w ++ l /\
    fst (sparse E n g s true mi' get fmt w) = w ++ l ++ l' /\
    forall r v, snd (sparse E n g s false mi get fmt w) = Ret r -> unwrap r false = Returns v -> l' = [].
Proof.
  intros * HE Hg Hn.
  assert (HR : is_preorder (@logs X)).
  { split; [intros a; exists []; rewrite app_nil_r; reflexivity|].
    intros a b c [l ->] [l' ->]. exists (l ++ l'). rewrite app_assoc. reflexivity. }
  assert (M : moves logs (sparse E n g s false mi get fmt)).
  { unfold sparse. apply mv_bind; auto; [|intros; apply mv_lift; auto].
    apply mv_bind; auto; [|intros; apply mv_lift; auto]. apply mv_fast; auto. }
  destruct (M w) as [l Hl]. exists l.
  pose proof (sparse_sim logs HR E n A g s mi mi' get fmt w HE Hg) as H.
  destruct (sparse E n g s false mi get fmt w) as [w0 [r0|x|]]; simpl in *; [| |congruence]; subst w0.
  - destruct H as [(v & K1 & r' & K2 & K3)|((errs & K0) & (l' & K) & _)].
    + exists []. rewrite K2, app_nil_r. simpl. auto.
    + exists l'. rewrite K, app_assoc. split; auto. split; auto. intros r v Hr Hv. congruence.
  - exists []. rewrite H, app_nil_r. simpl. auto.
Qed.
Print Assumptions C59_log.

(** ** Concrete cases.  A declaration adds a name to the symbol table, a use tests it:
    [items = many(sym("!") >> letter.fmap(declare) | satisfy(declared)) << eof] *)
Definition st_gram (St A : Type) : Type := sgram St char (fun _ => unit) A.
Definition st_E St : senv St char (fun _ => unit) := fun _ => XUndef.
Definition st_parse {St A} (g : st_gram St A) (w : string) (rec : bool) (st0 : St) :=
  sparse (st_E St) 30 g (ex_str w) rec 5 default_get_loc default_fmt_loc st0.
Definition st_letter (t : char) : bool := (97 <=? t)%N && (t <=? 122)%N.
Definition st_decl : st_gram (list char) char :=
  XFmap (XSeq (XSym N.eqb (ex_ch "!") "'!'") (XSatisfy (fun t => slift (Ret (st_letter t)))) (fun _ b => b))
    (fun a w => (w ++ [a], Ret a)).
Definition st_use : st_gram (list char) char :=
  XSatisfy (fun t w => (w, Ret (existsb (N.eqb t) w))).
Definition st_items : st_gram (list char) (list char) :=
  XSeq (XMany (XAlt st_decl st_use)) XEof (fun a _ => a).
Lemma st_items_logs : callbacks_move logs st_items.
Proof.
  assert (Hr : forall a : list char, logs a a) by (intros a; exists []; rewrite app_nil_r; reflexivity).
  simpl. repeat split; auto.
  all: try (intros t w; exact (Hr w)).
  intros a w. exists [a]. reflexivity.
Qed.
(** a valid input, and one that uses an undeclared name *)
Example C59_case :
  (exists r r', st_parse st_items "!aa!bab" false [] = (ex_str "ab", Ret r) /\
     st_parse st_items "!aa!bab" true [] = (ex_str "ab", Ret r') /\
     unwrap r false = Returns (ex_str "aabab") /\ unwrap r' false = Returns (ex_str "aabab")) /\
  (exists r r' errs errs', st_parse st_items "!a!bca" false [] = (ex_str "ab", Ret r) /\
     st_parse st_items "!a!bca" true [] = (ex_str "ab", Ret r') /\
     unwrap r false = Raises errs /\ unwrap r' false = Raises errs').
Proof.
  split; [do 2 eexists|do 4 eexists];
  repeat (split; [vm_compute; reflexivity|]); vm_compute; reflexivity.
Qed.

(** nothing is undone: an alternative that failed leaves its effects, in a successful
    parse too; and recovery calls the same callback on the same token again *)
Definition st_note (t0 : char) : st_gram (list char) char :=
  XSatisfy (fun t w => (w ++ [t], Ret (N.eqb t t0))).
Definition st_pair (b : char) : st_gram (list char) char :=
  XSeq (st_note (ex_ch "a")) (st_note b) (fun _ y => y).
Example C59_effects_are_not_undone :
  (exists r, st_parse (XAlt (XAttempt (st_pair (ex_ch "b"))) (st_pair (ex_ch "c"))) "ac" false [] =
      (ex_str "acac", Ret r) /\ unwrap r false = Returns (ex_ch "c")) /\
  (exists r errs, st_parse (XSeq (st_note (ex_ch "a")) XEof (fun x _ => x)) "xa" false [] = (ex_str "x", Ret r) /\
     unwrap r false = Raises errs) /\
  (exists r errs, st_parse (XSeq (st_note (ex_ch "a")) XEof (fun x _ => x)) "xa" true [] = (ex_str "xa", Ret r) /\
     unwrap r true = Returns (ex_ch "a") /\ unwrap r false = Raises errs) /\
  (exists r errs, st_parse (XAlt (st_note (ex_ch "a")) (st_note (ex_ch "b"))) "xa" true [] =
      (ex_str "xxxaxa", Ret r) /\ unwrap r false = Raises errs).
Proof.
  split; [eexists; split; vm_compute; reflexivity|].
  repeat split; do 2 eexists; repeat (split; [vm_compute; reflexivity|]); vm_compute; reflexivity.
Qed.
