(** C36: results never share mutable state.  The parsing functions of Heap.v
    update result objects in place; these theorems say that the objects of
    earlier calls never change and that what a call returns is what the
    functional semantics (Grammar.v, Api.v) returns. *)
From Verif Require Export HeapComb Examples.

Section C36.
Context {T : Type} {V : nat -> Type} (E : env T V).
Notation heap := (heap T).

Lemma parse_wp {A} n (g : gram T V A) s rec k getl fmt (h : heap) :
  wp h (hparse E n g s rec k getl fmt h) (parse E n g s rec k getl fmt)
    (fun h' r y => rd_p h' r = y /\ fresh_objects h h' (addrs (hpr_result r))).
Proof.
  unfold hparse, parse. cbv zeta. destruct (gram_ok E n) as [Gs Gf].
  apply (wp_sub _ _ _ _ Qf); [|apply extends_refl|].
  - clear h. intros h. destruct rec; [apply Gf|]. unfold omap.
    apply (wp_sub _ _ _ _ Qs); [apply Gs|apply extends_refl|]. intros h1 x y X1 [<- F1].
    apply wp_ret; auto. destruct x; split; auto.
  - intros h1 x y X [<- F]. apply wp_ret; auto.
Qed.

(** A call of [parse], in any heap, returns, raises or diverges as the functional
    semantics says, and the object it returns reads back as the functional result. *)
Theorem C36_parse_functional {A} n (g : gram T V A) s rec k getl fmt (h : heap) :
  omap (rd_p (fst (hparse E n g s rec k getl fmt h))) (snd (hparse E n g s rec k getl fmt h))
  = parse E n g s rec k getl fmt.
Proof.
  destruct (parse_wp n g s rec k getl fmt h) as [X K].
  destruct (hparse _ _ _ _ _ _ _ _ h) as [h1 [x|e|]]; simpl in *;
    destruct (parse _ _ _ _ _ _ _ _); try contradiction; auto.
  - destruct K as [<- _]. reflexivity.
  - subst; auto.
Qed.

(** No object that existed before the call is modified, also when the call raises
    (or is interrupted: [n] bounds the number of calls it makes). *)
Theorem C36_frame {A} n (g : gram T V A) s rec k getl fmt (h : heap) :
  extends h (fst (hparse E n g s rec k getl fmt h)).
Proof. apply (parse_wp n g s rec k getl fmt h). Qed.

(** The objects of a result are new and pairwise distinct: no repair operation
    occurs in two repairs, no object in two results. *)
Theorem C36_no_sharing {A} n (g : gram T V A) s rec k getl fmt (h h' : heap) r :
  hparse E n g s rec k getl fmt h = (h', Ret r) -> fresh_objects h h' (addrs (hpr_result r)).
Proof.
  intros H. destruct (parse_wp n g s rec k getl fmt h) as [X K]. rewrite H in K. simpl in K.
  destruct (parse _ _ _ _ _ _ _ _); try contradiction. apply K.
Qed.

(** Updating any object of one repair changes no other repair of the result. *)
Theorem C36_repairs_independent {A} n (g : gram T V A) s k getl fmt (h h' : heap) r rc l1 p l2 q l3 a c :
  hparse E n g s true k getl fmt h = (h', Ret r) -> hpr_result r = HRRec rc ->
  hc_reps rc = l1 ++ p :: l2 ++ q :: l3 \/ hc_reps rc = l1 ++ q :: l2 ++ p :: l3 ->
  In a (rep_addrs p) -> rd_rep (set_cell h' a c) q = rd_rep h' q.
Proof.
  intros H Hr Hl Ha. apply C36_no_sharing in H. rewrite Hr in H. destruct H as [D _].
  apply rd_rep_same. intros b Hb. simpl. destruct (Nat.eqb_spec b a) as [->|]; auto. exfalso.
  inversion D as [|? ? _ D1]; subst.
  destruct Hl as [Hl|Hl]; rewrite Hl, flat_map_app in D1; apply NoDup_split in D1 as (_ & D1 & _);
    cbn [flat_map] in D1; apply NoDup_split in D1 as (_ & _ & D1); apply (D1 a); auto;
    rewrite flat_map_app; apply in_or_app; right; cbn [flat_map]; apply in_or_app; auto.
Qed.

(** Reading a result: [unwrap] changes nothing and returns what the functional
    [unwrap] returns for the result read back. *)
Lemma h_py_min_ok {A} (l : list (hrep A)) : forall (b : hrep A) (h : heap),
  exists b', h_py_min (b, c_prio (h_cell h (hr_addr b))) l h = (h, Ret b') /\
    rd_rep h b' = py_min (rd_rep h b) (map (rd_rep h) l).
Proof.
  induction l as [|x l IH]; intros b h; [exists b; auto|].
  cbn [h_py_min py_min map]. unfold bindM, Heap.get.
  change (h_key_lt (x, c_prio (h_cell h (hr_addr x))) (b, c_prio (h_cell h (hr_addr b))))
    with (key_lt (rd_rep h x) (rd_rep h b)).
  destruct (key_lt (rd_rep h x) (rd_rep h b)); apply IH.
Qed.
Lemma map_items (fmt : loc -> string) (l : list hop) (h : heap) :
  mapH (fun i => c <~ Heap.get (hp_addr i) ;; ret (ErrorItem (hp_loc i) (fmt (hp_loc i)) (c_exp c) (Some (hp_op i)))) l h
  = (h, Ret (map (item_of_op fmt) (map (rd_op h) l))).
Proof. induction l as [|o l IH]; simpl; auto. unfold bindM, Heap.get, ret in *. rewrite IH. auto. Qed.
Theorem C36_unwrap_functional {A} (r : hpresult A) rec (h : heap) :
  hunwrap r rec h = (h, Ret (unwrap (rd_p h r) rec)).
Proof.
  unfold hunwrap, unwrap. simpl. destruct (hpr_result r) as [o|e|rc]; simpl; auto.
  destruct (hc_reps rc) as [|x l]; simpl; auto. unfold bindM at 1, Heap.get.
  destruct (h_py_min_ok l x h) as (b & E1 & R). rewrite (bind_done _ _ _ _ _ E1), <- R.
  destruct rec; auto. rewrite (bind_done _ _ _ _ _ (map_items _ _ _)). auto.
Qed.

(** [fmap] on a result changes no existing object either. *)
Definition valid {A} (h : heap) (r : hpresult A) : Prop := forall a, In a (addrs (hpr_result r)) -> a < h_next h.
Lemma fmap_wp {A B} (f : A -> out B) (r : hpresult A) (h : heap) : valid h r ->
  wp h (h_fmap f (hpr_result r) h) (res_fmap f (rd h (hpr_result r))) (Qm h (hpr_result r)).
Proof. apply h_fmap_wp. Qed.
Theorem C36_fmap_functional {A B} (f : A -> out B) (r : hpresult A) (h : heap) : valid h r ->
  extends h (fst (hpresult_fmap f r h)) /\
  omap (rd_p (fst (hpresult_fmap f r h))) (snd (hpresult_fmap f r h)) = presult_fmap f (rd_p h r).
Proof.
  intros Hv. destruct (fmap_wp f r h Hv) as [X K]. unfold hpresult_fmap, presult_fmap, bindM. simpl.
  destruct (h_fmap f (hpr_result r) h) as [h1 [x|e|]]; simpl in *;
    destruct (res_fmap f (rd h (hpr_result r))); try contradiction; simpl; split; auto.
  - destruct K as [<- _]. reflexivity.
  - subst. auto.
Qed.
Lemma fmap_valid {A B} (f : A -> out B) (r : hpresult A) (h h' : heap) r' : valid h r ->
  hpresult_fmap f r h = (h', Ret r') -> valid h' r'.
Proof.
  intros Hv. destruct (fmap_wp f r h Hv) as [X K]. unfold hpresult_fmap, bindM.
  destruct (h_fmap f (hpr_result r) h) as [h1 [x|e|]]; try discriminate. intros [= <- <-]. simpl in *.
  destruct (res_fmap f (rd h (hpr_result r))); try contradiction. destruct K as (_ & _ & K). exact K.
Qed.

(** Programs: whatever calls of parse, fmap and unwrap a program makes, in any
    order, successful or raising, every result it held before reads the same after. *)
Definition held_valid (h : heap) (x : held) : Prop := match x with Held r => valid h r end.
Lemma held_same (h h' : heap) x : held_valid h x -> extends h h' -> rd_held h' x = rd_held h x.
Proof.
  destruct x as [A r]. simpl. intros Hv X. f_equal. unfold rd_p. f_equal. apply rd_same, extends_same; auto.
Qed.
Lemma held_mono (h h' : heap) x : held_valid h x -> extends h h' -> held_valid h' x.
Proof. destruct x as [A r]. simpl. intros Hv [X _] a Ha. apply Hv in Ha. lia. Qed.
Lemma step_ok x y : step E x y -> Forall (held_valid (fst x)) (snd x) ->
  extends (fst x) (fst y) /\ Forall (held_valid (fst y)) (snd y) /\ exists l, snd y = snd x ++ l.
Proof.
  intros H Hv.
  assert (M : forall h', extends (fst x) h' -> Forall (held_valid h') (snd x)).
  { intros h' X. eapply Forall_impl; [|exact Hv]. intros z Hz. eapply held_mono; eauto. }
  destruct H as [h l A n g s rec k getl fmt h' r H|h l A n g s rec k getl fmt h' e H
    |h l A B r f h' r' Hr H|h l A B r f h' e Hr H|h l A r rec h' v Hr H]; simpl in *.
  - pose proof (C36_frame n g s rec k getl fmt h) as X. rewrite H in X. split; auto. split; [|eauto].
    apply Forall_app. split; auto. constructor; auto. simpl. intros a Ha.
    apply C36_no_sharing in H. apply H in Ha. lia.
  - pose proof (C36_frame n g s rec k getl fmt h) as X. rewrite H in X. split; auto. split; auto.
    exists []. rewrite app_nil_r; auto.
  - rewrite Forall_forall in Hv. pose proof (Hv _ Hr) as Vr. simpl in Vr.
    destruct (C36_fmap_functional f r h Vr) as [X _]. rewrite H in X. split; auto. split; [|eauto].
    apply Forall_app. split; auto. constructor; auto. simpl. eapply fmap_valid; eauto.
  - rewrite Forall_forall in Hv. pose proof (Hv _ Hr) as Vr. simpl in Vr.
    destruct (C36_fmap_functional f r h Vr) as [X _]. rewrite H in X. split; auto. split; auto.
    exists []. rewrite app_nil_r; auto.
  - rewrite C36_unwrap_functional in H. injection H as <- _. split; [apply extends_refl|]. split; auto.
    exists []. rewrite app_nil_r; auto.
Qed.
Lemma steps_ok x y : steps E x y -> Forall (held_valid (fst x)) (snd x) ->
  extends (fst x) (fst y) /\ Forall (held_valid (fst y)) (snd y) /\ exists l, snd y = snd x ++ l.
Proof.
  induction 1 as [x|x y z H _ IH]; intros Hv.
  - split; [apply extends_refl|]. split; auto. exists []. rewrite app_nil_r. auto.
  - destruct (step_ok _ _ H Hv) as (X1 & V1 & l1 & E1). destruct (IH V1) as (X2 & V2 & l2 & E2).
    split; [eapply extends_trans; eauto|]. split; auto. exists (l1 ++ l2). rewrite E2, E1, app_assoc. auto.
Qed.
Theorem C36_history h0 (h1 h2 : heap) l1 l2 :
  steps E (h0, []) (h1, l1) -> steps E (h1, l1) (h2, l2) ->
  (exists l, l2 = l1 ++ l) /\ map (rd_held h2) l1 = map (rd_held h1) l1.
Proof.
  intros H1 H2. destruct (steps_ok _ _ H1 (Forall_nil _)) as (_ & V1 & _).
  destruct (steps_ok _ _ H2 V1) as (X2 & _ & L). simpl in *. split; auto.
  apply map_ext_in. intros x Hx. rewrite Forall_forall in V1. apply held_same; auto.
Qed.

(** In particular: parse, then do anything, then unwrap: the outcome is that of the
    functional semantics. *)
Theorem C36_parse_then_unwrap {A} h0 (h h1 h2 : heap) l l2 n (g : gram T V A) s rec k getl fmt r rec' :
  steps E (h0, []) (h, l) ->
  hparse E n g s rec k getl fmt h = (h1, Ret r) ->
  steps E (h1, l ++ [Held r]) (h2, l2) ->
  exists y, parse E n g s rec k getl fmt = Ret y /\
    hunwrap r rec' h2 = (h2, Ret (unwrap y rec')).
Proof.
  intros H1 H2 H3. destruct (steps_ok _ _ H1 (Forall_nil _)) as (_ & V1 & _).
  pose proof (step_ok (h, l) (h1, l ++ [Held r]) (st_parse _ _ _ _ _ _ _ _ _ _ _ _ _ H2) V1) as (X1 & V2 & _).
  destruct (steps_ok _ _ H3 V2) as (X2 & _ & _).
  pose proof (C36_parse_functional n g s rec k getl fmt h) as F. rewrite H2 in F. simpl in F.
  exists (rd_p h1 r). split; auto. rewrite C36_unwrap_functional. do 2 f_equal. f_equal.
  apply Forall_app in V2 as [_ V2]. inversion V2 as [|? ? Vr _]; subst. simpl in Vr.
  unfold rd_p. f_equal. apply rd_same, extends_same; auto.
Qed.
End C36.

(** A concrete case: the expression grammar on "(()" and then on "1+(2", in one heap.  The first
    call builds a Recovered result with several repairs; the second one, which also
    recovers, leaves it as it is. *)
Definition ex_heap0 : heap char := Heap 0 (fun _ => Cell None no_ctx [] false).
Notation ex_hparse s h :=
  (hparse ex_E 150 ex_top (ex_str s) true 5 scannerless_get_loc linecol_fmt h).
Definition ex_reps (o : out (hpresult Z)) : list (hrep Z) :=
  match o with Ret r => match hpr_result r with HRRec rc => hc_reps rc | _ => [] end | _ => [] end.
Definition ex_unwrap (o : out (hpresult Z)) (h : heap char) : option (unwrapped Z) :=
  match o with Ret r => match hunwrap r true h with (_, Ret v) => Some v | _ => None end | _ => None end.
Theorem C36_case :
  exists h1 r1 h2 r2,
    ex_hparse "(()" ex_heap0 = (h1, Ret r1) /\ ex_hparse "1+(2" h1 = (h2, Ret r2) /\
    steps ex_E (ex_heap0, []) (h1, [Held r1]) /\ steps ex_E (h1, [Held r1]) (h2, [Held r1; Held r2]) /\
    List.length (ex_reps (Ret r1)) = 5 /\ List.length (ex_reps (Ret r2)) = 1 /\
    h_next h1 < h_next h2 /\
    List.length (addrs (hpr_result r1)) > 10 /\
    ex_unwrap (Ret r1) h2 = Some (Returns 0%Z) /\ ex_unwrap (Ret r2) h2 = Some (Returns 3%Z).
Proof.
  assert (K : let '(h1, o1) := ex_hparse "(()" ex_heap0 in let '(h2, o2) := ex_hparse "1+(2" h1 in
    match o1, o2 with Ret r1, Ret r2 =>
      (List.length (ex_reps o1), List.length (ex_reps o2), Nat.ltb (h_next h1) (h_next h2),
       Nat.ltb 10 (List.length (addrs (hpr_result r1))), ex_unwrap o1 h2, ex_unwrap o2 h2)
      = (5, 1, true, true, Some (Returns 0%Z), Some (Returns 3%Z))
    | _, _ => False end) by (vm_compute; reflexivity).
  destruct (ex_hparse "(()" ex_heap0) as [h1 o1] eqn:E1.
  destruct (ex_hparse "1+(2" h1) as [h2 o2] eqn:E2.
  destruct o1 as [r1|e|]; try contradiction. destruct o2 as [r2|e|]; try contradiction.
  injection K as K1 K2 K3 K4 K5 K6. apply Nat.ltb_lt in K3, K4.
  exists h1, r1, h2, r2. repeat split; auto.
  - apply (ss_cons _ _ (h1, [] ++ [Held r1])); [|apply ss_nil]. exact (st_parse ex_E _ _ _ _ _ _ _ _ _ _ _ _ E1).
  - apply (ss_cons _ _ (h2, [Held r1] ++ [Held r2])); [|apply ss_nil]. exact (st_parse ex_E _ _ _ _ _ _ _ _ _ _ _ _ E2).
Qed.
