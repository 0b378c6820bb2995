(** C69, callbacks with side effects: an exception from outside that is raised in a call of
    a callback (the user presses Ctrl-C) leaves the effects of the calls before it, in the
    order of the undisturbed run, and nothing else; it is never mistaken for a result.  If
    it comes too late the run is not changed in any way. *)
From Verif Require Import StatefulStop StatefulSim PropsStateful Examples.
From Coq Require Import Lia.

Lemma parse_syn St T V (part : St -> St) x (E : senv St T V) n A (g : sgram St T V A) s recover mi get fmt :
  syn part x (sparse E n g s recover mi get fmt)
    (sparse (fun d => watch (E d)) n (watch g) s recover mi get fmt)
    (sparse (fun d => stop part x (E d)) n (stop part x g) s recover mi get fmt).
Proof.
  unfold sparse. destruct recover.
  - apply syn_bind; [apply syn_full|intros; apply syn_lift].
  - apply syn_bind; [apply syn_bind; [apply syn_fast|intros; apply syn_lift]|intros; apply syn_lift].
Qed.

(** The undisturbed run has the history [h]: the states after each call of a callback, the
    last one being the state at the end.  Interrupted in call number [k] (counted from 0), it
    ends with the exception, in the state after [k] calls, changed by what the interrupted
    call had done by then; if there are not so many calls, with the same outcome and state. *)
Theorem C69_callbacks :
  forall St T V (E : senv St T V) n A (g : sgram St T V A) s recover mi get fmt w w' o,
  sparse E n g s recover mi get fmt w = (w', o) ->
  exists h, last h w = w' /\
    sparse (fun d => watch (E d)) n (watch g) s recover mi get fmt ([], w) = ((h, w'), o) /\
    forall part x k,
      sparse (fun d => stop part x (E d)) n (stop part x g) s recover mi get fmt (k, w) =
      if Nat.ltb k (List.length h) then ((0, part (nth k (w :: h) w)), Raise x) else ((k - List.length h, w'), o).
Proof.
  intros St T V E n A g s recover mi get fmt w w' o H.
  destruct (parse_syn St T V (fun w => w) ManyEmpty E n A g s recover mi get fmt w) as (h & L & K & _). rewrite H in *. cbn [fst snd] in *.
  exists h. split; [exact L|]. split; [rewrite K; reflexivity|]. intros part x k.
  destruct (parse_syn St T V part x E n A g s recover mi get fmt w) as (h' & L' & K' & J). rewrite H in *. cbn [fst snd] in *.
  assert (h' = h) as ->; [|apply J]. specialize (K []). specialize (K' []). cbn [app] in K, K'. congruence.
Qed.
Print Assumptions C69_callbacks.

(** So, if every callback changes the state only as a preorder [R] allows, the state after an
    interruption lies between the state before the parse and that after the undisturbed one. *)
Definition between {St} (R : St -> St -> Prop) (a b : list St * St) : Prop :=
  exists l, fst b = fst a ++ l /\ last l (snd a) = snd b /\
    forall k, k <= List.length l -> R (snd a) (nth k (snd a :: l) (snd a)) /\ R (nth k (snd a :: l) (snd a)) (snd b).
Lemma between_preorder St (R : St -> St -> Prop) : is_preorder R -> is_preorder (between R).
Proof.
  intros [Rr Rt]. split.
  - intros [h w]. exists []. split; [cbn; rewrite app_nil_r; auto|]. split; [auto|]. intros k Hk. cbn in Hk. assert (k = 0) as -> by lia. cbn. auto.
  - intros [ha wa] [hb wb] [hc wc] (l & H1 & H2 & H3) (l' & K1 & K2 & K3). cbn [fst snd] in *. subst hb hc.
    exists (l ++ l'). cbn [fst snd]. split; [rewrite app_assoc; reflexivity|]. split; [rewrite last_app, H2; exact K2|].
    intros k Hk. rewrite app_length in Hk. destruct (Nat.le_gt_cases k (List.length l)) as [J|J].
    + change (wa :: l ++ l') with ((wa :: l) ++ l'). rewrite app_nth1 by (cbn; lia). destruct (H3 k J) as [Q1 Q2].
      split; [exact Q1|]. eapply Rt; [exact Q2|]. destruct (K3 0) as [_ Q]; [lia|exact Q].
    + rewrite (nth_both l l' wa k) by lia. rewrite H2.
      destruct (K3 (k - List.length l)) as [Q1 Q2]; [lia|]. split; [|exact Q2]. eapply Rt; [|exact Q1].
      destruct (H3 (List.length l)) as [_ Q]; [lia|]. rewrite nth_last, H2 in Q.
      eapply Rt; [destruct (H3 0) as [_ Q']; [lia|exact Q']|apply Rr].
Qed.
Lemma between_one St (R : St -> St -> Prop) h w w' : is_preorder R -> R w w' -> between R (h, w) (h ++ [w'], w').
Proof.
  intros [Rr Rt] H. exists [w']. split; [reflexivity|]. split; [reflexivity|]. cbn. intros [|[|k]] Hk; [auto|auto|lia].
Qed.
Lemma watch_moves St T V (R : St -> St -> Prop) : is_preorder R -> forall A (g : sgram St T V A),
  callbacks_move R g -> callbacks_move (between R) (watch g).
Proof.
  intros HR.
  assert (W : forall X (m : st St X), moves R m -> moves (between R) (watched m)).
  { intros X m Hm [h w]. specialize (Hm w). unfold watched. cbn [fst snd]. destruct (m w) as [w' o]. apply between_one; auto. }
  fix IH 2. intros A g. destruct g; cbn [watch callbacks_move]; auto; try (intros [H1 H2]; split; auto; fail).
  intros [Hp Hf]. split; [auto|]. intros a [h w]. cbn [fst snd]. destruct (Hf a w) as [H1 H2]. destruct (f a w) as [w' [q|e|]] eqn:Q; cbn [fst snd];
    (split; [apply between_one; auto|auto]).
Qed.
Theorem C69_callbacks_between :
  forall St T V (R : St -> St -> Prop) (E : senv St T V) n A (g : sgram St T V A) s recover mi get fmt w x k,
  is_preorder R -> env_moves R E -> callbacks_move R g ->
  let interrupted := sparse (fun d => stop (fun w => w) x (E d)) n (stop (fun w => w) x g) s recover mi get fmt (k, w) in
  R w (snd (fst interrupted)) /\ R (snd (fst interrupted)) (fst (sparse E n g s recover mi get fmt w)).
Proof.
  intros St T V R E n A g s recover mi get fmt w x k HR HE Hg. cbv zeta.
  destruct (sparse E n g s recover mi get fmt w) as [w' o] eqn:Q.
  destruct (C69_callbacks _ _ _ _ _ _ _ _ _ _ _ _ _ _ _ Q) as (h & L & K & J). rewrite J. cbn [fst].
  assert (M : moves (between R) (sparse (fun d => watch (E d)) n (watch g) s recover mi get fmt)).
  { pose proof (between_preorder St R HR) as HR'.
    assert (HE' : env_moves (between R) (fun d => watch (E d))) by (intros d; apply watch_moves; auto).
    assert (Hg' : callbacks_move (between R) (watch g)) by (apply watch_moves; auto).
    unfold sparse. destruct recover; apply mv_bind; auto; try (intros; apply mv_lift; auto).
    - apply mv_full; auto.
    - apply mv_bind; auto; [|intros; apply mv_lift; auto]. apply mv_fast; auto. }
  specialize (M ([], w)). rewrite K in M. destruct M as (l & M1 & M2 & M3). cbn [fst snd app] in *. subst l.
  destruct (Nat.ltb_spec k (List.length h)) as [I|I]; cbn [fst snd].
  - apply M3. lia.
  - destruct (M3 (List.length h) (Nat.le_refl _)) as [N1 N2]. rewrite nth_last, L in N1, N2. auto.
Qed.
Print Assumptions C69_callbacks_between.

(** The symbol table of [C59_case]: "!aa!bab" makes seven calls of callbacks, one for each
    letter but two for a declared one, which is tested and then entered; interrupted in
    the fourth, with or without recovery, the table has the first name. *)
Definition st_stop (k : nat) (w : string) (recover : bool) :=
  sparse (fun d => stop (fun w => w) (UserExn "KeyboardInterrupt") (st_E (list char) d)) 30
    (stop (fun w => w) (UserExn "KeyboardInterrupt") st_items) (ex_str w) recover 5 default_get_loc default_fmt_loc (k, []).
Theorem C69_case_callbacks :
  (exists h, fst (fst (sparse (fun d => watch (st_E (list char) d)) 30 (watch st_items) (ex_str "!aa!bab") false 5
      default_get_loc default_fmt_loc ([], []))) = h /\ List.length h = 7 /\
    h = [[]; ex_str "a"; ex_str "a"; ex_str "a"; ex_str "ab"; ex_str "ab"; ex_str "ab"]) /\
  st_stop 0 "!aa!bab" false = ((0, []), Raise (UserExn "KeyboardInterrupt")) /\
  st_stop 3 "!aa!bab" false = ((0, ex_str "a"), Raise (UserExn "KeyboardInterrupt")) /\
  st_stop 6 "!aa!bab" true = ((0, ex_str "ab"), Raise (UserExn "KeyboardInterrupt")) /\
  (exists r, st_stop 7 "!aa!bab" false = ((0, ex_str "ab"), Ret r) /\ unwrap r false = Returns (ex_str "aabab")).
Proof.
  split; [eexists; split; [reflexivity|]; vm_compute; auto|].
  do 3 (split; [vm_compute; reflexivity|]). eexists. split; vm_compute; reflexivity.
Qed.
Print Assumptions C69_case_callbacks.
