(** C39: parse does not raise. *)
From Verif Require Export PropsTerm.

Lemma obind_raise {A B} (m : out A) (f : A -> out B) e :
  obind m f = Raise e -> m = Raise e \/ exists a, m = Ret a /\ f a = Raise e.
Proof. destruct m; simpl; intros H; [right; eauto|left; congruence|discriminate]. Qed.
Lemma mapM_raise {A B} (f : A -> out B) l e :
  mapM f l = Raise e -> exists a, In a l /\ f a = Raise e.
Proof.
  induction l as [|a l IH]; simpl; intros H; [discriminate|].
  apply obind_raise in H as [H|(y & _ & H)]; [eauto|].
  apply obind_raise in H as [H|(ys & _ & H)]; [|discriminate].
  destruct (IH H) as (b & Hb & Hf). eauto.
Qed.
Lemma flat_mapM_raise {A B} (f : A -> out (list B)) l e :
  flat_mapM f l = Raise e -> exists a, In a l /\ f a = Raise e.
Proof.
  induction l as [|a l IH]; simpl; intros H; [discriminate|].
  apply obind_raise in H as [H|(y & _ & H)]; [eauto|].
  apply obind_raise in H as [H|(ys & _ & H)]; [|discriminate].
  destruct (IH H) as (b & Hb & Hf). eauto.
Qed.
Lemma continue_raise {T A B C} (rc : recr T A) ins
    (f : A -> nat -> ctx T -> Z -> out (res T B)) (merge : A -> B -> C) e :
  continue_parse rc ins f merge = Raise e ->
  exists rep, In rep (rc_reps rc) /\ f (r_val rep) (r_pos rep) (r_ctx rep) (r_ins rep) = Raise e.
Proof.
  unfold continue_parse. intros H. apply obind_raise in H as [H|(ys & _ & H)]; [|discriminate].
  apply flat_mapM_raise in H as (rep & Hin & H). unfold cont_one in H.
  apply obind_raise in H as [H|(r & _ & H)]; [eauto|]. destruct r; discriminate.
Qed.
Lemma sres_fmap_raise {T A B} (f : A -> out B) (r : sres T A) e :
  sres_fmap f r = Raise e -> exists o, r = SOk o /\ f (ok_val o) = Raise e.
Proof.
  destruct r as [o|]; simpl; [|discriminate]. intros H.
  apply obind_raise in H as [H|(? & _ & H)]; [|discriminate].
  unfold ok_fmap in H. apply obind_raise in H as [H|(? & _ & H)]; [eauto|discriminate].
Qed.
Lemma res_fmap_raise {T A B} (f : A -> out B) (r : res T A) e :
  res_fmap f r = Raise e -> (exists o, r = ROk o /\ f (ok_val o) = Raise e) \/
    exists rc rep, r = RRec rc /\ In rep (rc_reps rc) /\ f (r_val rep) = Raise e.
Proof.
  destruct r as [o| |rc]; simpl; [| discriminate|]; intros H;
    (apply obind_raise in H as [H|(? & _ & H)]; [|discriminate]).
  - left. unfold ok_fmap in H. apply obind_raise in H as [H|(? & _ & H)]; [eauto|discriminate].
  - right. unfold rec_fmap in H. apply obind_raise in H as [H|(? & _ & H)]; [|discriminate].
    apply mapM_raise in H as (rep & Hin & H). unfold rep_fmap in H.
    apply obind_raise in H as [H|(? & _ & H)]; [|discriminate]. exists rc, rep. auto.
Qed.
Lemma skip_loop_raise {X} (probe : nat -> out (option X)) k cur e :
  skip_loop probe k cur = Raise e -> exists i, probe i = Raise e.
Proof.
  revert cur. induction k as [|k IH]; intros cur; simpl; [discriminate|]. intros H.
  apply obind_raise in H as [H|(r & _ & H)]; [eauto|]. destruct r; [discriminate|eauto].
Qed.

Section Total.
Context {T : Type} {V : nat -> Type}.
Variable E : env T V.
Notation gram := (gram T V).
Hypothesis HE : wf_env E.
Variable s : list T.
Notation len := (List.length s).

Definition silent {A} (x : out A) : Prop := forall e, x <> Raise e.
Definition sfast n B (q : gram B) : Prop := forall pos c, pos <= len -> silent (fast E n q s pos c).
Definition sfull n B (q : gram B) : Prop := forall pos c ins rem, pos <= len -> silent (full E n q s pos c ins rem).

Definition calm B (q : gram B) : Prop := wf q /\ quiet_node E B q.
Lemma calm_of A (g : gram A) : wf g -> everywhere E (quiet_node E) g -> everywhere E calm g.
Proof. intros H1 H2 B q Hq. split; [eapply occurs_wf; eauto|apply H2; auto]. Qed.

Lemma probe_tok_silent test i : (forall t : T, returns (test t)) -> silent (probe_tok test s i).
Proof.
  intros H e. unfold probe_tok. destruct (nth_error s i) as [t|]; [|discriminate].
  destruct (H t) as [b ->]. discriminate.
Qed.

Lemma many_fast_silent A (p : gram A) n : wf p -> (forall v, ~ lang E A p [] v) -> sfast n A p ->
  forall k con v pos c, pos <= len -> silent (many_fast (fast E n p) k con v s pos c).
Proof.
  intros Hwf Hne Hs. induction k as [|k IH]; intros con v pos c Hp e H; [discriminate|].
  simpl in H. apply obind_raise in H as [H|(r & Hr & H)]; [eapply Hs; eauto|].
  destruct r as [o|x]; [|destruct (er_con x); discriminate].
  apply (fast_info E s HE) in Hr; auto. destruct Hr as (I1 & I2 & I3).
  destruct (ok_con o) eqn:Hc; [eapply IH; [|exact H]; lia|].
  symmetry in I2. apply Nat.ltb_ge in I2. replace (ok_pos o) with pos in I3 by lia.
  rewrite slice_nil in I3. eapply Hne; eauto.
Qed.
Lemma many_full_silent A (p : gram A) n : wf p -> (forall v, ~ lang E A p [] v) -> sfull n A p ->
  forall k con v pos c ins, pos <= len -> silent (many_full (full E n p) k con v s pos c ins).
Proof.
  intros Hwf Hne Hs. induction k as [|k IH]; intros con v pos c ins Hp e H; [discriminate|].
  simpl in H. apply obind_raise in H as [H|(r & Hr & H)]; [eapply Hs; eauto|].
  apply (full_info E s HE) in Hr; auto.
  destruct r as [o|x|rc]; [|destruct (er_con x); discriminate|].
  - destruct Hr as (I1 & I2 & I3).
    destruct (ok_con o) eqn:Hc; [eapply IH; [|exact H]; lia|].
    symmetry in I2. apply Nat.ltb_ge in I2. replace (ok_pos o) with pos in I3 by lia.
    rewrite slice_nil in I3. eapply Hne; eauto.
  - apply continue_raise in H as (rep & Hin & H). destruct (Hr rep Hin) as (I1 & _).
    eapply IH; [|exact H]. lia.
Qed.

Ltac br H := apply obind_raise in H as [H|(? & ? & H)].
Ltac kids Hg := pose proof (everywhere_children E _ _ _ _ (fun _ _ h => h) Hg).

Lemma fast_silent n : forall A (g : gram A), everywhere E calm g -> sfast n A g.
Proof.
  induction n as [|n IH]; intros A g Hg pos c Hp e H; [discriminate|].
  pose proof (everywhere_refl E _ _ _ Hg) as [W Q].
  pose proof (everywhere_children E (sfast n) _ _ _ (fun B q h => IH B q h) Hg) as K.
  destruct g; simpl in H, K, Q.
  - discriminate.
  - unfold purefn_fast in H. destruct Q as [v Hv]. rewrite Hv in H. discriminate.
  - discriminate.
  - unfold eof_fast in H. destruct (Nat.eqb _ _); discriminate.
  - unfold satisfy_fast in H. br H; [eapply probe_tok_silent; eauto|]. destruct x; discriminate.
  - unfold sym_fast, probe_sym in H. destruct (nth_error s pos) as [t|]; simpl in H; [|discriminate].
    destruct (teq t x); discriminate.
  - unfold literal_fast in H. destruct (starts_with _ _ _ _); discriminate.
  - unfold regexp_fast in H. destruct (probe_re _ _ _) as [[]|]; discriminate.
  - unfold fmap_fast in H. br H; [eapply K; eauto|]. apply sres_fmap_raise in H as (o & -> & H).
    apply (fast_info E s HE) in H0; auto; [|apply W]. destruct (Q _ _ (proj2 (proj2 H0))) as [v' Hv]. congruence.
  - unfold alt_fast in H. br H; [eapply (proj1 K); eauto|]. destruct x as [o|x]; [discriminate|].
    destruct (er_con x); [discriminate|]. br H; [eapply (proj2 K); eauto|].
    destruct (sres_con x0), x0; discriminate.
  - unfold bind_fast in H. br H; [eapply (proj1 K); eauto|]. destruct x as [o|x]; [|discriminate].
    br H; [|discriminate]. apply (fast_info E s HE) in H0; auto; [|apply W].
    eapply (proj2 K); [|exact H]; lia.
  - unfold seq_fast in H. br H; [eapply (proj1 K); eauto|]. destruct x as [o|x]; [|discriminate]. cbv zeta in H.
    apply (fast_info E s HE) in H0; auto; [|apply W].
    br H; [eapply (proj2 K); [|exact H]; lia|]. br H; [|discriminate].
    apply sres_fmap_raise in H as (? & _ & H). discriminate.
  - unfold maybe_fast in H. br H; [eapply K; eauto|]. destruct x as [o|x].
    + apply sres_fmap_raise in H as (? & _ & H). discriminate.
    + destruct (er_con x); discriminate.
  - eapply many_fast_silent in H; eauto. apply W.
  - unfold attempt_fast in H. br H; [eapply K; eauto|]. destruct x; discriminate.
  - unfold label_fast in H. br H; [eapply K; eauto|]. discriminate.
  - eapply K; eauto.
  - eapply K; eauto.
  - eapply K; eauto.
  - unfold block_fast in H. br H; [eapply K; eauto|]. discriminate.
  - unfold aligned_fast in H. cbv zeta in H. destruct (Z.eqb _ _); [eapply K; eauto|discriminate].
  - unfold indented_fast in H. cbv zeta in H. destruct (Z.eqb _ _); [|discriminate].
    br H; [eapply K; eauto|]. discriminate.
  - eapply IH; [|exact Hp|exact H]. eapply everywhere_delay; [exact Hg|apply oc_refl].
  - destruct Q.
Qed.

Lemma full_silent n : forall A (g : gram A), everywhere E calm g -> sfull n A g.
Proof.
  induction n as [|n IH]; intros A g Hg pos c ins rem Hp e H; [discriminate|].
  pose proof (everywhere_refl E _ _ _ Hg) as [W Q].
  pose proof (everywhere_children E (sfull n) _ _ _ (fun B q h => IH B q h) Hg) as K.
  assert (Hw : forall B (p : gram B) mk (lab : B -> string), sfull n B p -> (forall s i, returns (mk s i)) ->
     recover_with_full (full E n p) mk lab s pos c ins rem <> Raise e).
  { clear -Hp. intros B p mk lab K Q H. unfold recover_with_full in H.
    destruct rem as [m|]; [|eapply K; eauto]. br H; [eapply K; eauto|].
    destruct x as [o|x|rc]; [discriminate| |].
    - destruct (res_con (RErr x)); [discriminate|]. destruct (Z.eqb m 0); [discriminate|].
      destruct (Q s pos) as [v Hv]. rewrite Hv in H. discriminate.
    - destruct (res_con (RRec rc)); [discriminate|]. destruct (Z.eqb m 0); [discriminate|].
      destruct (Q s pos) as [v Hv]. rewrite Hv in H. discriminate. }
  destruct g; simpl in H, K, Q.
  - discriminate.
  - unfold purefn_full in H. destruct Q as [v Hv]. rewrite Hv in H. discriminate.
  - discriminate.
  - unfold eof_full in H. destruct (Nat.eqb _ _), rem; discriminate.
  - unfold satisfy_full in H. br H; [eapply probe_tok_silent; eauto|]. destruct x; [discriminate|].
    destruct rem; [|discriminate]. br H.
    + apply skip_loop_raise in H as [i H]. eapply probe_tok_silent; eauto.
    + destruct x as [[cur t]|]; discriminate.
  - unfold sym_full in H. br H.
    + unfold probe_sym in H. destruct (nth_error s pos); discriminate.
    + destruct x0; [discriminate|]. destruct rem; [|discriminate]. br H.
      * apply skip_loop_raise in H as [i H]. unfold probe_sym in H. destruct (nth_error s i); discriminate.
      * destruct x0 as [[cur t]|]; discriminate.
  - unfold literal_full in H. destruct (starts_with _ _ _ _); [discriminate|].
    destruct rem; [|discriminate]. br H.
    + apply skip_loop_raise in H as [i H]. discriminate.
    + destruct x0 as [[cur t]|]; discriminate.
  - unfold regexp_full in H. destruct (probe_re _ _ _) as [[]|]; [discriminate|].
    destruct rem; [|discriminate]. br H.
    + apply skip_loop_raise in H as [i H]. discriminate.
    + destruct x as [[cur [t w]]|]; discriminate.
  - unfold fmap_full in H. br H; [eapply K; eauto|]. apply (full_info E s HE) in H0; auto; [|apply W].
    apply res_fmap_raise in H as [(o & -> & H)|(rc & rep & -> & Hin & H)].
    + destruct (Q _ _ (proj2 (proj2 H0))) as [v' Hv]. congruence.
    + destruct (H0 rep Hin) as (_ & _ & (w & Hl) & _). destruct (Q _ _ Hl) as [v' Hv]. congruence.
  - destruct K as [K1 K2]. unfold alt_full in H. br H; [eapply K1; eauto|].
    assert (HR : forall la x, silent (alt_recover (full E n g1) (full E n g2) la x s pos c ins rem)).
    { clear H. intros la z e' H. unfold alt_recover in H. destruct rem; [|discriminate].
      br H; [eapply K1; eauto|]. br H; [eapply K2; eauto|]. destruct x0, x1; discriminate. }
    assert (HB : forall xa la, silent (rb <- full E n g2 s pos c ins None ;;
          if res_con rb then Ret rb
          else
            let expected := Append xa (res_exp rb) in
            match rb with
            | ROk ob => Ret (ROk (ok_set_exp expected ob))
            | _ => alt_recover (full E n g1) (full E n g2) la expected s pos c ins rem
            end)).
    { clear H. intros xa la e' H. br H; [eapply K2; eauto|]. destruct (res_con x0); [discriminate|].
      cbv zeta in H. destruct x0; [discriminate| |]; eapply HR; exact H. }
    destruct x as [o|[la xa ca]|[reps mn la xa ca]]; [discriminate| |];
      (destruct ca; [discriminate|]); eapply HB; exact H.
  - destruct K as [K1 K2]. unfold bind_full in H. br H; [eapply K1; eauto|].
    apply (full_info E s HE) in H0; auto; [|apply W].
    destruct x as [o|x|rc]; [|discriminate|].
    + destruct (ok_con o); (br H; [|discriminate]); (eapply K2; [|exact H]; lia).
    + apply continue_raise in H as (rep & Hin & H). destruct (H0 rep Hin) as (I1 & _).
      eapply K2; [|exact H]. lia.
  - destruct K as [K1 K2]. unfold seq_full in H. br H; [eapply K1; eauto|].
    apply (full_info E s HE) in H0; auto; [|apply W].
    destruct x as [o|x|rc]; [|discriminate|].
    + cbv zeta in H. br H; [eapply K2; [|exact H]; lia|]. br H; [|discriminate].
      apply res_fmap_raise in H as [(? & _ & H)|(? & ? & _ & _ & H)]; discriminate.
    + apply continue_raise in H as (rep & Hin & H). destruct (H0 rep Hin) as (I1 & _).
      eapply K2; [|exact H]. lia.
  - unfold maybe_full in H. br H; [eapply K; eauto|].
    assert (G : forall y, res_fmap (fun v => Ret (Some v)) x <> Raise y).
    { intros y Hy. apply res_fmap_raise in Hy as [(? & _ & Hy)|(? & ? & _ & _ & Hy)]; discriminate. }
    destruct x as [o|x|rc]; [eapply G; exact H| |]; (destruct (res_con _); [eapply G; exact H|discriminate]).
  - eapply many_full_silent in H; eauto. apply W.
  - unfold attempt_full in H. destruct rem; [eapply K; eauto|].
    br H; [|destruct x; discriminate]. eapply fast_silent; [|exact Hp|exact H].
    eapply everywhere_sub; [|exact Hg]. constructor. apply oc_refl.
  - unfold label_full in H. br H; [eapply K; eauto|]. discriminate.
  - unfold recover_full in H. br H; [eapply K; eauto|]. destruct x; discriminate.
  - eapply Hw; [exact K| |exact H]. intros; eexists; reflexivity.
  - eapply Hw; [exact K| |exact H]. exact Q.
  - unfold block_full in H. br H; [eapply K; eauto|]. discriminate.
  - unfold aligned_full in H. cbv zeta in H. destruct (Z.eqb _ _); [eapply K; eauto|discriminate].
  - unfold indented_full in H. cbv zeta in H. destruct (Z.eqb _ _); [|discriminate].
    br H; [eapply K; eauto|]. discriminate.
  - eapply IH; [|exact Hp|exact H]. eapply everywhere_delay; [exact Hg|apply oc_refl].
  - destruct Q.
Qed.
End Total.

(** no exception comes out of [parse] *)
Theorem C39_no_exception :
  forall T V (E : env T V) A (g : gram T V A) s recover k get fmt n e,
  wf_env E -> wf g -> everywhere E (quiet_node E) g ->
  parse E n g s recover k get fmt <> Raise e.
Proof.
  intros T V E A g s recover k get fmt n e HE Hg Hq H.
  pose proof (calm_of E HE _ g Hg Hq) as Hc. unfold parse in H.
  apply obind_raise in H as [H|(? & _ & H)]; [|discriminate]. destruct recover.
  - eapply (full_silent E HE s); [exact Hc| |exact H]. lia.
  - unfold omap in H. apply obind_raise in H as [H|(? & _ & H)]; [|discriminate].
    eapply (fast_silent E HE s); [exact Hc| |exact H]. lia.
Qed.
Print Assumptions C39_no_exception.

Lemma quiet_halting {T V} (E : env T V) A (g : gram T V A) :
  everywhere E (quiet_node E) g -> everywhere E (halting_node E) g.
Proof.
  intros H B q Hq. specialize (H B q Hq). destruct q; simpl in *; auto; unfold halts.
  - destruct H as [v ->]. discriminate.
  - intros t. destruct (H t) as [v ->]. discriminate.
  - intros w v Hv. destruct (H w v Hv) as [v' ->]. discriminate.
  - intros x i. destruct (H x i) as [v ->]. discriminate.
Qed.

(** ... so that, without left recursion, every parse comes back with a result *)
Theorem C39_total :
  forall T V (E : env T V) A (g : gram T V A) s recover k get fmt,
  wf_env E -> wf g -> everywhere E (quiet_node E) g -> guarded E g -> (0 <= k)%Z ->
  exists n r, parse E n g s recover k get fmt = Ret r.
Proof.
  intros T V E A g s recover k get fmt HE Hg Hq Hgd Hk.
  destruct (C33_guarded_terminates T V E A g s recover k get fmt HE Hg (quiet_halting E _ _ Hq) Hgd Hk)
    as (o & Ho & n & H).
  exists n. specialize (H n (le_n n)). destruct o as [r|e|]; [eauto| |congruence].
  exfalso. eapply C39_no_exception; eauto.
Qed.
Print Assumptions C39_total.

(** Each condition is needed. *)
Theorem C39_many_empty : exists E (g : ex_gram (list char)) s n,
  wf_env E /\ wf g /\ guarded E g /\ scannerless_parse E n g s false = Raise ManyEmpty.
Proof.
  exists lay_E, (GMany (GPure (ex_ch "a"))), [], 10.
  split; [intros d; solve_gall|]. split; [solve_gall|]. split; [apply no_delay_guarded; solve_gall|reflexivity].
Qed.
Theorem C39_undefined : exists n,
  scannerless_parse lay_E n (GDelay 0 : ex_gram Z) [] true = Raise DelayUndefined.
Proof. exists 10. reflexivity. Qed.

(** the expression grammar is total *)
Lemma ex_sym_not_empty E a v : ~ lang E _ (ex_sym a) [] v.
Proof. intros H. apply lang_inv in H as [H _]. discriminate. Qed.
Lemma ex_digit_not_empty E v : ~ lang E _ ex_digit [] v.
Proof.
  intros H. apply lang_inv in H as (v0 & H & _). apply lang_inv in H. apply lang_inv in H as [H _]. discriminate.
Qed.
Lemma ex_value_not_empty E v : ~ lang E _ ex_value [] v.
Proof.
  intros H. apply lang_inv in H as [H|[H _]]; [|discriminate].
  apply lang_inv in H as [H|H]; [eapply ex_digit_not_empty; eauto|].
  apply lang_inv in H as (w1 & w2 & v1 & v2 & Hw & _ & H & _). apply app_nil_inv in Hw as [-> ->].
  eapply ex_sym_not_empty; eauto.
Qed.
Lemma ex_guarded : guarded ex_E ex_top.
Proof.
  intros d _. constructor. intros d' H. exfalso. apply lcall_inv in H. apply lcall_inv in H.
  destruct H as [H|[[v H] _]]; [|eapply ex_value_not_empty; eauto].
  apply lcall_inv in H. apply lcall_inv in H as [H|H].
  - apply lcall_inv in H. apply lcall_inv in H. apply lcall_inv in H. exact H.
  - apply lcall_inv in H as [H|[[v H] _]]; [apply lcall_inv in H; exact H|eapply ex_sym_not_empty; eauto].
Qed.
Lemma ex_reduce_returns l : Forall (fun x : (Z -> Z -> out Z) * Z => forall a b, returns (fst x a b)) l ->
  forall r, returns (chainl1_loop r l).
Proof.
  induction 1 as [|[op a] l Hx _ IH]; intros r; simpl; [eexists; reflexivity|].
  destruct (Hx r a) as [v Hv]. simpl in Hv. rewrite Hv. apply IH.
Qed.
Lemma ex_quiet : everywhere ex_E (quiet_node ex_E) ex_top.
Proof.
  apply everywhere_gall.
  - intros d. solve_gall; intros; try (eexists; reflexivity).
    + apply lang_inv in H as (w1 & w2 & v1 & v2 & _ & -> & _ & H).
      unfold chainl1_reducer. apply ex_reduce_returns. cbn [snd].
      eapply many_values; [|exact H]. clear. intros w v H.
      apply lang_inv in H as (w1 & w2 & v1 & v2 & _ & -> & H & _).
      apply lang_inv in H as (w3 & w4 & v3 & v4 & _ & -> & _ & H).
      apply lang_inv in H as [_ ->]. intros a b. eexists. reflexivity.
    + intros H. apply lang_inv in H as (w1 & w2 & v1 & v2 & Hw & _ & H & _). apply app_nil_inv in Hw as [-> ->].
      apply lang_inv in H as (w1 & w2 & v3 & v4 & Hw & _ & H & _). apply app_nil_inv in Hw as [-> ->].
      eapply ex_sym_not_empty; eauto.
  - solve_gall.
Qed.
Theorem C39_case : forall s recover k get fmt, (0 <= k)%Z ->
  exists n r, parse ex_E n ex_top s recover k get fmt = Ret r.
Proof.
  intros. apply C39_total; auto; [apply ex_wf_E|apply ex_wf|apply ex_quiet|apply ex_guarded].
Qed.
Print Assumptions C39_case.
(** C33 on the same grammar: recursion through Delay 0 behind an opening bracket *)
Example C33_case : occurs ex_E (GDelay 0) _ ex_top /\ occurs ex_E (GDelay 0) _ (ex_E 0) /\
  guarded ex_E ex_top /\ everywhere ex_E (halting_node ex_E) ex_top.
Proof.
  split; [apply oc_seq_l, oc_refl|]. split.
  - apply oc_fmap, oc_seq_l, oc_with, oc_alt_r, oc_seq_r, oc_seq_l, oc_refl.
  - split; [apply ex_guarded|apply quiet_halting, ex_quiet].
Qed.
