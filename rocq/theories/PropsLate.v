(** Property C73: Delays defined by other threads and during a parse. *)
From Coq Require Import Lia.
From Verif Require Import Late InterpProofs PropsInterrupt Examples.
Import ListNotations.

Fixpoint first_undefined (defined : nat -> nat -> bool) (k : nat) (l : list nat) : option nat :=
  match l with [] => None | d :: l => if defined k d then first_undefined defined (S k) l else Some k end.
Lemma first_undef_app defined l l' : forall k, first_undefined defined k (l ++ l') =
  match first_undefined defined k l with Some i => Some i | None => first_undefined defined (k + List.length l) l' end.
Proof.
  induction l as [|d l IH]; intros k; cbn; [rewrite Nat.add_0_r; reflexivity|]. destruct (defined k d); auto.
  rewrite IH. replace (S k + List.length l) with (k + S (List.length l)) by lia. reflexivity.
Qed.
Lemma gparse_late defined T V (E : env T V) n A (g : gram T V A) s rec mi get fmt :
  forall k, gparse (lates defined) E n g s rec mi get fmt k =
  let (l, o) := gparse uses E n g s rec mi get fmt in
  match first_undefined defined k l with
  | Some i => (S i, Raise DelayUndefined)
  | None => (k + List.length l, o)
  end.
Proof.
  apply (gparse_rel (lates defined) uses (fun A m m' => forall k, m k =
    let (l, o) := m' : used A in match first_undefined defined k l with Some i => (S i, Raise DelayUndefined) | None => (k + List.length l, o) end)).
  - intros B o k. cbn. rewrite Nat.add_0_r. reflexivity.
  - intros B C m [l o] f f' H Hf k. cbn. unfold lbind, ubind. rewrite H. destruct o as [a|e|].
    + specialize (Hf a). destruct (f' a) as [l' o']. rewrite first_undef_app.
      destruct (first_undefined defined k l); [reflexivity|]. rewrite Hf, app_length, Nat.add_assoc. reflexivity.
    + destruct (first_undefined defined k l); reflexivity.
    + destruct (first_undefined defined k l); reflexivity.
  - intros B m m' H. exact H.
  - intros B d m [l o] H k. cbn. unfold luse. cbn [first_undefined]. destruct (defined k d); [|reflexivity].
    rewrite H. destruct (first_undefined defined (S k) l); [reflexivity|]. cbn. f_equal. lia.
Qed.
Lemma gparse_uses T V (E : env T V) n A (g : gram T V A) s rec mi get fmt :
  snd (gparse uses E n g s rec mi get fmt) = parse E n g s rec mi get fmt.
Proof.
  assert (H : snd (gparse uses E n g s rec mi get fmt) = snd (gparse depths E n g s rec mi get fmt)).
  { apply (gparse_rel uses depths (fun A m m' => snd (m : used A) = snd (m' : dm A))).
    - reflexivity.
    - intros B C [l o] [d o'] f f' H Hf. cbn in H. subst o'. cbn. unfold dbind. destruct o as [a|e|]; cbn; auto.
      specialize (Hf a). destruct (f a), (f' a). cbn in *. exact Hf.
    - intros B [l o] [d o'] H. exact H.
    - intros B d [l o] [d' o'] H. exact H. }
  rewrite H, gparse_depths. reflexivity.
Qed.
Lemma first_undef_none defined l : forall k, first_undefined defined k l = None <-> forall j d, nth_error l j = Some d -> defined (k + j) d = true.
Proof.
  induction l as [|d l IH]; intros k; cbn.
  - split; auto. intros _ [|j] d H; discriminate.
  - destruct (defined k d) eqn:H.
    + rewrite IH. split; intros K.
      * intros [|j] d' Hj; [cbn in Hj; injection Hj as <-; rewrite Nat.add_0_r; exact H|].
        replace (k + S j) with (S k + j) by lia. apply K. exact Hj.
      * intros j d' Hj. replace (S k + j) with (k + S j) by lia. apply K. exact Hj.
    + split; [discriminate|]. intros K. specialize (K 0 d eq_refl). rewrite Nat.add_0_r in K. congruence.
Qed.

(** Whenever the Delays get their definitions, the parse raises RuntimeError("Delayed
    parser was not defined") or its outcome is the one of the parse after all of them
    are defined; the former exactly if some Delay is used before it is defined. *)
Theorem C73_defined_during_parse :
  forall T V (E : env T V) n A (g : gram T V A) s rec mi get fmt defined,
  let us := parse_uses E n g s rec mi get fmt in
  let run := parse_late defined E n g s rec mi get fmt in
  ((forall k d, nth_error us k = Some d -> defined k d = true) -> run = parse E n g s rec mi get fmt) /\
  (forall k d, nth_error us k = Some d -> defined k d = false -> run = Raise DelayUndefined).
Proof.
  intros. subst us run. unfold parse_uses, parse_late. rewrite gparse_late.
  pose proof (gparse_uses T V E n A g s rec mi get fmt) as H. destruct (gparse uses E n g s rec mi get fmt) as [l o]. cbn [fst snd] in *. subst o.
  pose proof (first_undef_none defined l 0) as F. cbn [Nat.add] in F. destruct (first_undefined defined 0 l) as [i|].
  - split; [|reflexivity]. intros K. destruct F as [_ F]. specialize (F K). discriminate.
  - split; [reflexivity|]. intros k d Hk Hd. destruct F as [F _]. rewrite (F eq_refl k d Hk) in Hd. discriminate.
Qed.
Print Assumptions C73_defined_during_parse.
Theorem C73_all_or_error :
  forall T V (E : env T V) n A (g : gram T V A) s rec mi get fmt defined,
  parse_late defined E n g s rec mi get fmt = parse E n g s rec mi get fmt \/
  parse_late defined E n g s rec mi get fmt = Raise DelayUndefined.
Proof.
  intros. unfold parse_late. rewrite gparse_late.
  pose proof (gparse_uses T V E n A g s rec mi get fmt) as H. destruct (gparse uses E n g s rec mi get fmt) as [l o]. cbn [snd] in H. subst o.
  destruct (first_undefined defined 0 l); [right|left]; reflexivity.
Qed.
Print Assumptions C73_all_or_error.

(** ** Threads that define the same Delay *)
Lemma nth_set_same {X} (l : list X) : forall i x y, nth_error l i = Some y -> nth_error (set_nth i x l) i = Some x.
Proof. induction l as [|z l IH]; intros [|i] x y H; cbn in *; try discriminate; auto. eapply IH; eauto. Qed.
Lemma nth_set_other {X} (l : list X) : forall i j x, i <> j -> nth_error (set_nth i x l) j = nth_error l j.
Proof. induction l as [|z l IH]; intros [|i] [|j] x H; cbn; auto; try congruence. Qed.
Lemma set_nth_length {X} (l : list X) : forall i x, List.length (set_nth i x l) = List.length l.
Proof. induction l as [|z l IH]; intros [|i] x; cbn; auto. Qed.

Definition inv (sys : delay * list pc) : Prop :=
  let (st, ps) := sys in
  (dl_defined st = true <-> exists i, nth_error ps i = Some AtStore \/ nth_error ps i = Some Returned) /\
  (forall i, nth_error ps i = Some Raised -> dl_defined st = true) /\
  (match dl_fns st with
   | Some i => nth_error ps i = Some Returned
   | None => forall i, nth_error ps i <> Some Returned
   end).
Lemma inv_turn i sys : inv sys -> inv (turn i sys).
Proof.
  destruct sys as [[fl fn] ps]. unfold turn. cbn [fst snd]. destruct (nth_error ps i) as [p|] eqn:Hi; [|auto].
  intros (H1 & H2 & H3). cbn [dl_defined dl_fns] in *.
  assert (O : forall x j, nth_error (set_nth i x ps) j = if Nat.eqb i j then Some x else nth_error ps j).
  { intros x j. destruct (Nat.eqb_spec i j) as [<-|N]; [apply (nth_set_same _ _ _ _ Hi)|apply nth_set_other; auto]. }
  destruct p; cbn [define_step dl_defined dl_fns].
  - destruct fl; cbn [inv dl_defined dl_fns].
    + split; [|split].
      * split; auto. intros _. destruct H1 as [H1 _]. destruct (H1 eq_refl) as [j Hj]. exists j. rewrite O.
        destruct (Nat.eqb_spec i j) as [<-|]; auto. destruct Hj; congruence.
      * auto.
      * destruct fn as [k|].
        -- rewrite O. destruct (Nat.eqb_spec i k) as [<-|]; auto. congruence.
        -- intros j. rewrite O. destruct (Nat.eqb i j); [congruence|auto].
    + split; [|split].
      * split; [discriminate|]. intros [j Hj]. rewrite O in Hj. destruct (Nat.eqb i j); [destruct Hj; discriminate|]. apply H1. eauto.
      * intros j. rewrite O. destruct (Nat.eqb i j); [discriminate|apply H2].
      * destruct fn as [k|].
        -- rewrite O. destruct (Nat.eqb_spec i k) as [<-|]; auto. congruence.
        -- intros j. rewrite O. destruct (Nat.eqb i j); [congruence|auto].
  - cbn [inv dl_defined dl_fns]. split; [|split].
    + split; auto. intros _. exists i. rewrite O, Nat.eqb_refl. auto.
    + auto.
    + destruct fn as [k|].
      * rewrite O. destruct (Nat.eqb_spec i k) as [<-|]; auto. congruence.
      * intros j. rewrite O. destruct (Nat.eqb i j); [congruence|auto].
  - cbn [inv dl_defined dl_fns]. split; [|split].
    + assert (fl = true) as -> by (apply H1; eauto). split; auto. intros _. exists i. rewrite O, Nat.eqb_refl. auto.
    + intros j. rewrite O. destruct (Nat.eqb i j); [discriminate|apply H2].
    + rewrite O, Nat.eqb_refl. reflexivity.
  - replace (set_nth i Returned ps) with ps; [cbn; auto|]. symmetry. revert Hi. clear. revert i. induction ps as [|z ps IH]; intros [|i] H; cbn in *; try discriminate; [congruence|]. rewrite IH; auto.
  - replace (set_nth i Raised ps) with ps; [cbn; auto|]. symmetry. revert Hi. clear. revert i. induction ps as [|z ps IH]; intros [|i] H; cbn in *; try discriminate; [congruence|]. rewrite IH; auto.
Qed.
Lemma inv_run sched : forall sys, inv sys -> inv (run_turns sched sys).
Proof. induction sched as [|i l IH]; intros sys H; cbn; auto. apply IH, inv_turn, H. Qed.
Lemma nth_repeat' {X} (x : X) n : forall i y, nth_error (repeat x n) i = Some y -> y = x.
Proof. intros i y H. apply nth_error_In, repeat_spec in H. auto. Qed.
Lemma inv_start n : inv (definers n).
Proof.
  cbn. split; [|split].
  - split; [discriminate|]. intros [i [H|H]]; apply nth_repeat' in H; discriminate.
  - intros i H. apply nth_repeat' in H. discriminate.
  - intros i H. apply nth_repeat' in H. discriminate.
Qed.
Lemma turn_length i sys : List.length (snd (turn i sys)) = List.length (snd sys).
Proof. unfold turn. destruct (nth_error (snd sys) i); auto. destruct (define_step i (fst sys) p). cbn. apply set_nth_length. Qed.
Lemma run_length sched : forall sys, List.length (snd (run_turns sched sys)) = List.length (snd sys).
Proof. induction sched as [|i l IH]; intros sys; cbn; auto. rewrite IH. apply turn_length. Qed.

(** Whatever the schedule: when all calls are over, the Delay is defined, by the
    parser of a call that returned; a call that raised has not changed it. *)
Theorem C73_someone_defines :
  forall n sched, 0 < n ->
  let (st, ps) := run_turns sched (definers n) in
  over ps ->
  dl_defined st = true /\ exists i, dl_fns st = Some i /\ nth_error ps i = Some Returned.
Proof.
  intros n sched Hn. pose proof (inv_run sched _ (inv_start n)) as I. pose proof (run_length sched (definers n)) as L.
  destruct (run_turns sched (definers n)) as [st ps]. destruct I as (I1 & I2 & I3). intros O.
  cbn [snd definers] in L. rewrite repeat_length in L. destruct ps as [|p ps]; [cbn in L; lia|].
  assert (D : dl_defined st = true).
  { destruct (O p (or_introl eq_refl)) as [->| ->]; [apply I1; exists 0; cbn; auto|apply (I2 0); reflexivity]. }
  split; auto. destruct (dl_fns st) as [i|]; [eauto|]. exfalso. apply I1 in D as [i [H|H]].
  - apply nth_error_In in H. destruct (O _ H); discriminate.
  - exact (I3 i H).
Qed.
Print Assumptions C73_someone_defines.

(** A Delay that only one thread defines never changes once it is defined: uses see
    no definition up to some moment and the same one from then on. *)
Theorem C73_one_definer :
  forall sched1 sched2,
  let st1 := fst (run_turns sched1 (definers 1)) in
  let st2 := fst (run_turns (sched1 ++ sched2) (definers 1)) in
  (dl_fns st1 = None \/ dl_fns st1 = Some 0) /\ (dl_fns st1 = Some 0 -> dl_fns st2 = Some 0) /\
  nth_error (snd (run_turns sched1 (definers 1))) 0 <> Some Raised.
Proof.
  assert (R : forall a b sys, run_turns (a ++ b) sys = run_turns b (run_turns a sys)).
  { induction a as [|i a IH]; intros b sys; cbn; auto. }
  assert (K : forall sched sys, In sys [definers 1; (new_delay, [AtFlag]); (DelayObj true None, [AtStore]); (DelayObj true (Some 0), [Returned])] ->
    In (run_turns sched sys) [definers 1; (new_delay, [AtFlag]); (DelayObj true None, [AtStore]); (DelayObj true (Some 0), [Returned])]).
  { induction sched as [|[|[|i]] l IH]; intros sys H; auto; cbn [run_turns]; apply IH;
      destruct H as [<-|[<-|[<-|[<-|[]]]]]; cbn; auto 10. }
  intros. subst st1 st2. rewrite R. specialize (K sched1 (definers 1) (or_introl eq_refl)).
  destruct K as [<-|[<-|[<-|[<-|[]]]]]; cbn [fst snd dl_fns definers new_delay repeat nth_error]; repeat split; auto; try discriminate.
  intros _. assert (F : forall l, run_turns l (DelayObj true (Some 0), [Returned]) = (DelayObj true (Some 0), [Returned])).
  { induction l as [|[|[|i]] l IH]; cbn; auto. }
  rewrite F. reflexivity.
Qed.
Print Assumptions C73_one_definer.

(** The check and the assignment are not one step: two threads can both define a
    Delay, and a parse in between sees two different definitions. *)
Theorem C73_double_define :
  let s1 := run_turns [0; 1; 0; 1; 0] (definers 2) in
  let s2 := run_turns [1] s1 in
  dl_fns (fst s1) = Some 0 /\ dl_fns (fst s2) = Some 1 /\ snd s2 = [Returned; Returned].
Proof. vm_compute. auto. Qed.
(** _defined is set before _fns: a parser built at that moment by another thread keeps
    the undefined functions, also after [define] has returned. *)
Theorem C73_half_defined :
  let s1 := run_turns [0; 0] (definers 1) in
  let s2 := run_turns [0] s1 in
  snd s2 = [Returned] /\ dl_fns (fst s2) = Some 0 /\
  means (to_fns (fst s1)) (fst s2) = None /\
  means (to_fns (fst (definers 1))) (fst s2) = Some 0 /\ means (to_fns (fst s2)) (fst s2) = Some 0.
Proof. vm_compute. auto. Qed.
Print Assumptions C73_double_define.
Print Assumptions C73_half_defined.
(** Without overlap the first call defines the Delay and every later one raises. *)
Definition one_after_another (order : list nat) : list nat := flat_map (fun i => [i; i; i]) order.
Theorem C73_no_overlap :
  forall n i order, i < n -> (forall j, In j (i :: order) -> j < n) -> NoDup (i :: order) ->
  let (st, ps) := run_turns (one_after_another (i :: order)) (definers n) in
  dl_fns st = Some i /\ nth_error ps i = Some Returned /\ forall j, In j order -> nth_error ps j = Some Raised.
Proof.
  intros n i order Hi Hall Hnd. inversion Hnd as [|? ? Hni Hnd']; subst.
  assert (S : forall k sys st p p', fst sys = st -> nth_error (snd sys) k = Some p -> forall st', define_step k st p = (st', p') -> turn k sys = (st', set_nth k p' (snd sys))).
  { intros k [st0 ps] st p p' <- H st' H'. unfold turn. cbn [fst snd] in *. rewrite H, H'. reflexivity. }
  assert (N0 : nth_error (repeat AtTest n) i = Some AtTest).
  { clear -Hi. revert i Hi. induction n as [|n IH]; intros [|i] H; cbn; auto; try lia. apply IH; lia. }
  assert (N1 : forall j, j < n -> nth_error (repeat AtTest n) j = Some AtTest).
  { clear. intros j. revert n. induction j as [|j IH]; intros [|n] H; cbn; auto; try lia. apply IH; lia. }
  cbn [one_after_another flat_map app run_turns]. fold (one_after_another order).
  assert (T1 : turn i (definers n) = (new_delay, set_nth i AtFlag (repeat AtTest n))) by (eapply S; [reflexivity|exact N0|reflexivity]).
  pose proof (nth_set_same _ i AtFlag _ N0) as N2. pose proof (nth_set_same _ i AtStore _ N2) as N3.
  assert (T2 : turn i (new_delay, set_nth i AtFlag (repeat AtTest n)) = (DelayObj true None, set_nth i AtStore (set_nth i AtFlag (repeat AtTest n))))
    by (eapply S; [reflexivity|exact N2|reflexivity]).
  assert (T3 : turn i (DelayObj true None, set_nth i AtStore (set_nth i AtFlag (repeat AtTest n))) =
     (DelayObj true (Some i), set_nth i Returned (set_nth i AtStore (set_nth i AtFlag (repeat AtTest n)))))
    by (eapply S; [reflexivity|exact N3|reflexivity]).
  rewrite T1, T2, T3. clear T1 T2 T3.
  set (ps0 := set_nth i Returned _).
  assert (P0 : nth_error ps0 i = Some Returned) by (subst ps0; eapply nth_set_same; exact N3).
  assert (P1 : forall j, In j order -> nth_error ps0 j = Some AtTest).
  { intros j Hj. subst ps0. assert (i <> j) by (intros ->; contradiction). rewrite !nth_set_other by auto. apply N1, Hall. right. exact Hj. }
  clearbody ps0. clear N0 N1 N2 N3 Hall Hi Hnd.
  revert ps0 P0 P1. induction order as [|j order IH]; intros ps0 P0 P1.
  - cbn. split; [reflexivity|]. split; [exact P0|]. intros j [].
  - cbn [one_after_another flat_map app run_turns]. fold (one_after_another order).
    assert (Hij : i <> j) by (intros ->; apply Hni; left; reflexivity).
    inversion Hnd' as [|? ? Hnj Hnd2]; subst.
    assert (PJ : nth_error ps0 j = Some AtTest) by (apply P1; left; reflexivity).
    assert (T0 : turn j (DelayObj true (Some i), ps0) = (DelayObj true (Some i), set_nth j Raised ps0)) by (eapply S; [reflexivity|exact PJ|reflexivity]).
    rewrite T0. clear T0.
    assert (Q : nth_error (set_nth j Raised ps0) j = Some Raised) by (eapply nth_set_same; exact PJ).
    assert (W : turn j (DelayObj true (Some i), set_nth j Raised ps0) = (DelayObj true (Some i), set_nth j Raised (set_nth j Raised ps0))).
    { eapply S; [reflexivity|exact Q|reflexivity]. }
    assert (Z : set_nth j Raised (set_nth j Raised ps0) = set_nth j Raised ps0).
    { clear. revert j. induction ps0 as [|z ps IH]; intros [|j]; cbn; auto. f_equal. apply IH. }
    rewrite W, Z, W, Z.
    specialize (IH ltac:(intros X; apply Hni; right; exact X) Hnd2 (set_nth j Raised ps0)).
    assert (A1 : nth_error (set_nth j Raised ps0) i = Some Returned) by (rewrite nth_set_other; auto).
    assert (A2 : forall k, In k order -> nth_error (set_nth j Raised ps0) k = Some AtTest).
    { intros k Hk. rewrite nth_set_other; [apply P1; right; exact Hk|]. intros ->. contradiction. }
    specialize (IH A1 A2).
    assert (Stay : forall k l sys, ~ In k l -> nth_error (snd (run_turns l sys)) k = nth_error (snd sys) k).
    { intros k. induction l as [|x l IHl]; intros sys Hk; cbn [run_turns]; auto. rewrite IHl; [|intros X; apply Hk; right; exact X].
      unfold turn. destruct (nth_error (snd sys) x); auto. destruct (define_step x (fst sys) p). cbn [snd]. apply nth_set_other. intros ->. apply Hk. left. reflexivity. }
    specialize (Stay j (one_after_another order) (DelayObj true (Some i), set_nth j Raised ps0)).
    destruct (run_turns (one_after_another order) (DelayObj true (Some i), set_nth j Raised ps0)) as [st ps]. cbn [snd] in Stay.
    destruct IH as (B1 & B2 & B3). split; [exact B1|]. split; [exact B2|]. intros k [<-|Hk]; [|apply B3; exact Hk].
    rewrite Stay; [exact Q|]. intros X. apply in_flat_map in X as (y & Hy & [<-|[<-|[<-|[]]]]); contradiction.
Qed.
Print Assumptions C73_no_overlap.

(** ** Case: the recursive expression grammar on "(1)": Delay 0 is used twice; with a
    definition that comes after the first use the parse raises, with one that comes in
    time it is as usual *)
Example C73_case :
  parse_uses ex_E 150 ex_top (ex_str "(1)") false 5 scannerless_get_loc linecol_fmt = [0; 0] /\
  parse_late (fun k _ => Nat.leb 1 k) ex_E 150 ex_top (ex_str "(1)") false 5 scannerless_get_loc linecol_fmt = Raise DelayUndefined /\
  omap (fun r => unwrap r false) (parse_late (fun _ _ => true) ex_E 150 ex_top (ex_str "(1)") false 5 scannerless_get_loc linecol_fmt) = Ret (Returns 1%Z) /\
  over (snd (run_turns (one_after_another [1; 0; 2]) (definers 3))) /\
  snd (run_turns (one_after_another [1; 0; 2]) (definers 3)) = [Raised; Returned; Raised].
Proof.
  split; [vm_compute; reflexivity|]. split; [vm_compute; reflexivity|]. split; [vm_compute; reflexivity|]. split; [|vm_compute; reflexivity].
  vm_compute. intros p [<-|[<-|[<-|[]]]]; auto.
Qed.
