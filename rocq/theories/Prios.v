(** Invariants of all parsers that need no assumption on locations: priorities
    are None or 0, the smallest skip recorded is at least one token, positions
    stay inside the stream and [consumed] means that the position advanced. *)
From Verif Require Export AltLaws EditInv RepInd Lim.

Section Prios.
Context {T : Type} {V : nat -> Type}.

Definition minok {A} (r : res T A) : Prop :=
  match r with RRec rc => forall m, rc_min rc = Some m -> 1 <= m | _ => True end.

Lemma minok_fmap {A B} (f : A -> out B) r r' : minok r -> res_fmap f r = Ret r' -> minok r'.
Proof.
  destruct r; simpl; intros H Hf.
  - apply obind_ret in Hf as [o' [_ Hf]]. injection Hf as <-. exact I.
  - injection Hf as <-. exact I.
  - apply obind_ret in Hf as [o' [H1 Hf]]. injection Hf as <-.
    unfold rec_fmap in H1. apply obind_ret in H1 as [reps [H2 H1]]. injection H1 as <-. exact H.
Qed.
Lemma minok_exp {A} x (r : res T A) : minok r -> minok (res_set_exp x r).
Proof. destruct r; simpl; auto. Qed.
Lemma minok_ctx {A} x (r : res T A) : minok r -> minok (res_set_ctx x r).
Proof. destruct r; simpl; auto. Qed.
Lemma minok_prep {A} x b (r : res T A) : minok r -> minok (res_prepend x b r).
Proof. destruct r; simpl; auto. Qed.
Lemma minok_cont {A B C} (rc : recr T A) ins f (merge : A -> B -> C) r :
  minok (RRec rc) -> continue_parse rc ins f merge = Ret r -> minok r.
Proof. intros H Hc. apply continue_ret in Hc as (reps & _ & ->). exact H. Qed.
Lemma minok_join {A} (a b : recr T A) :
  minok (RRec a) -> minok (RRec b) -> minok (RRec (join_repairs a b)).
Proof.
  simpl. intros Ha Hb m. unfold join_repairs.
  destruct (rc_min a) as [x|], (rc_min b) as [y|]; destruct (rc_con a); try destruct (rc_con b);
    simpl; try destruct (Nat.ltb _ _); intros H; auto; try discriminate; injection H as <-; auto.
Qed.
Lemma minok_many {A} (p : pfull T A) s ins :
  (forall pos c r, p s pos c ins None = Ret r -> minok r) ->
  forall n con v pos c r, many_full p n con v s pos c ins = Ret r -> minok r.
Proof.
  intros Hp n. induction n as [|n IH]; intros con v pos c r H; simpl in H; [discriminate|].
  apply obind_ret in H as [r0 [H0 H]]. apply Hp in H0. destruct r0 as [o|e|rc].
  - destruct (ok_con o); [eauto|discriminate].
  - destruct (er_con e); injection H as <-; exact I.
  - eapply minok_cont in H; eauto.
Qed.
Lemma minok_with {A} (p : pfull T A) mk lab s pos c ins rem r :
  (forall r, p s pos c ins rem = Ret r -> minok r) ->
  recover_with_full p mk lab s pos c ins rem = Ret r -> minok r.
Proof.
  intros Hp H. unfold recover_with_full in H. destruct rem as [z|]; [|auto].
  apply obind_ret in H as [r0 [H0 H]]. apply Hp in H0.
  destruct r0 as [o|e|rc].
  - injection H as <-; auto.
  - destruct (res_con (RErr e)); [injection H as <-; auto|].
    destruct (z =? 0)%Z; [injection H as <-; auto|]. apply obind_ret in H as [x [Hx H]].
    injection H as <-. simpl. discriminate.
  - destruct (res_con (RRec rc)); [injection H as <-; auto|].
    destruct (z =? 0)%Z; [injection H as <-; auto|]. apply obind_ret in H as [x [Hx H]].
    injection H as <-. exact H0.
Qed.

Lemma full_min (E : env T V) n : forall A (g : gram T V A) s pos c ins rem r,
  full E n g s pos c ins rem = Ret r -> minok r.
Proof.
  induction n as [|n IH]; [discriminate|].
  intros A g. destruct g; intros s pos c ins rem r H; cbn [full] in H.
  - injection H as <-; exact I.
  - unfold purefn_full in H. apply obind_ret in H as [x0 [_ H]]. injection H as <-; exact I.
  - injection H as <-; exact I.
  - unfold eof_full in H. destruct (Nat.eqb _ _); [injection H as <-; exact I|].
    destruct rem; injection H as <-; [|exact I]. simpl. discriminate.
  - unfold satisfy_full in H. apply obind_ret in H as [x0 [_ H]].
    destruct x0; [injection H as <-; exact I|].
    destruct rem; [|injection H as <-; exact I]. apply obind_ret in H as [f [Hf H]].
    destruct f as [[cur t]|]; injection H as <-; [|exact I].
    apply skip_search_found in Hf as (Hf & _). simpl. intros m Hm; injection Hm as <-; lia.
  - unfold sym_full in H. apply obind_ret in H as [x0 [_ H]].
    destruct x0; [injection H as <-; exact I|].
    destruct rem; [|injection H as <-; exact I]. apply obind_ret in H as [f [Hf H]].
    destruct f as [[cur t]|]; injection H as <-; [|simpl; discriminate].
    apply skip_search_found in Hf as (Hf & _). simpl. intros m Hm; injection Hm as <-; lia.
  - unfold literal_full in H. destruct (starts_with _ _ _ _); [injection H as <-; exact I|].
    destruct rem; [|injection H as <-; exact I]. apply obind_ret in H as [f [Hf H]].
    destruct f as [[cur t]|]; injection H as <-; [|simpl; discriminate].
    apply skip_search_found in Hf as (Hf & _). simpl. intros m Hm; injection Hm as <-; lia.
  - unfold regexp_full in H. destruct (probe_re _ _ _) as [[e v]|]; [injection H as <-; exact I|].
    destruct rem; [|injection H as <-; exact I]. apply obind_ret in H as [f [Hf H]].
    destruct f as [[cur [e v]]|]; injection H as <-; [|exact I].
    apply skip_search_found in Hf as (Hf & _). simpl. intros m0 Hm; injection Hm as <-; lia.
  - unfold fmap_full in H. apply obind_ret in H as [r0 [H0 H]].
    eapply minok_fmap; eauto.
  - unfold alt_full in H. apply obind_ret in H as [ra [Ha H]].
    assert (Hrec : forall la x r, alt_recover (full E n g1) (full E n g2) la x s pos c ins rem
        = Ret r -> minok r).
    { clear H. intros la x r' H. unfold alt_recover in H.
      destruct rem as [m|]; [|injection H as <-; exact I].
      apply obind_ret in H as [rra [Hra H]]. apply obind_ret in H as [rrb [Hrb H]].
      apply IH in Hra, Hrb.
      destruct rra as [?|?|a], rrb as [?|?|b]; injection H as <-; try exact I;
        try (apply (minok_exp x (RRec _)); assumption).
      apply (minok_exp x (RRec _)). apply minok_join; assumption. }
    assert (Hb : forall xa la,
       (rb <- full E n g2 s pos c ins None ;;
          if res_con rb then Ret rb
          else
            let expected := Append xa (res_exp rb) in
            match rb with
            | ROk ob => Ret (ROk (ok_set_exp expected ob))
            | _ => alt_recover (full E n g1) (full E n g2) la expected s pos c ins rem
            end) = Ret r -> minok r).
    { clear H. intros xa la H. apply obind_ret in H as [rb [Hb H]]. apply IH in Hb.
      destruct (res_con rb); [injection H as <-; exact Hb|]. cbv zeta in H.
      destruct rb; [injection H as <-; exact I| |]; eapply Hrec; exact H. }
    pose proof (IH _ _ _ _ _ _ _ _ Ha) as Qa.
    destruct ra as [o|[la xa ca]|[reps mn la xa ca]].
    + injection H as <-; exact I.
    + destruct ca; [injection H as <-; exact I|]. eapply Hb; exact H.
    + destruct ca; [injection H as <-; exact Qa|]. eapply Hb; exact H.
  - unfold bind_full in H. apply obind_ret in H as [ra [Ha H]]. apply IH in Ha.
    destruct ra as [o|e|rc].
    + destruct (ok_con o); apply obind_ret in H as [rb [Hb H]]; apply IH in Hb;
        injection H as <-; apply minok_prep; exact Hb.
    + injection H as <-; exact I.
    + eapply minok_cont; [exact Ha|exact H].
  - unfold seq_full in H. apply obind_ret in H as [ra [Ha H]]. apply IH in Ha.
    destruct ra as [o|e|rc].
    + apply obind_ret in H as [rb [Hb H]]; apply IH in Hb.
      apply obind_ret in H as [rc [Hc H]]. injection H as <-. apply minok_prep.
      eapply minok_fmap; eauto.
    + injection H as <-; exact I.
    + eapply minok_cont; [exact Ha|exact H].
  - unfold maybe_full in H. apply obind_ret in H as [r0 [H0 H]]. apply IH in H0.
    destruct r0.
    + eapply minok_fmap; eauto.
    + destruct (res_con _); [eapply minok_fmap; eauto|injection H as <-; exact I].
    + destruct (res_con _); [eapply minok_fmap; eauto|injection H as <-; exact I].
  - eapply minok_many; [|exact H]. intros; eapply IH; eauto.
  - unfold attempt_full in H. destruct rem; [eapply IH; eauto|].
    apply obind_ret in H as [r0 [_ H]]. destruct r0; injection H as <-; exact I.
  - unfold label_full in H. apply obind_ret in H as [r0 [H0 H]]. injection H as <-.
    apply minok_exp. eapply IH; eauto.
  - unfold recover_full in H. apply obind_ret in H as [r0 [H0 H]]. apply IH in H0.
    destruct r0 as [?|?|rc]; injection H as <-; auto.
  - eapply minok_with; [|exact H]. intros; eapply IH; eauto.
  - eapply minok_with; [|exact H]. intros; eapply IH; eauto.
  - unfold block_full in H. apply obind_ret in H as [r0 [H0 H]]. injection H as <-.
    apply minok_ctx. eapply IH; eauto.
  - unfold aligned_full in H. destruct (Z.eqb _ _); [eapply IH; eauto|injection H as <-; exact I].
  - unfold indented_full in H. destruct (Z.eqb _ _); [|injection H as <-; exact I].
    apply obind_ret in H as [r0 [H0 H]]. injection H as <-. apply minok_ctx. eapply IH; eauto.
  - eapply IH; eauto.
  - discriminate.
Qed.

Lemma full_prios (E : env T V) n A (g : gram T V A) s pos c ins rem r :
  full E n g s pos c ins rem = Ret r -> res_prios r.
Proof.
  intros H. pose proof (full_min _ _ _ _ _ _ _ _ _ _ H) as Hm.
  destruct r as [o|e|rc]; try exact I. split; [|exact Hm].
  intros rep Hin. apply (full_basic _ _ _ _ _ _ _ _ _ _ _ H Hin).
Qed.

(** positions, for well-formed grammars *)
Lemma any_ctx_system (s : list T) :
  ctx_system s (fun _ _ => True) (fun _ _ => True) (fun _ _ => True) True.
Proof. constructor; auto. Qed.
Lemma wf_gok A (g : gram T V A) : wf g -> gok True g.
Proof. apply gall_mono. intros; split; auto. Qed.

Lemma full_pos E n A (g : gram T V A) s pos c ins rem r :
  wf g -> wf_env E -> pos <= List.length s -> full E n g s pos c ins rem = Ret r ->
  match r with
  | ROk o => pos <= ok_pos o <= List.length s /\ ok_con o = Nat.ltb pos (ok_pos o)
  | RErr _ => True
  | RRec rc => forall rep, In rep (rc_reps rc) -> pos <= r_pos rep <= List.length s
  end.
Proof.
  intros Hg HE Hp H.
  apply (full_good E s _ _ _ _ (any_ctx_system s) (fun d => wf_gok _ _ (HE d))) in H; auto.
  2:{ apply wf_gok; auto. }
  destruct r as [o|e|rc]; auto.
  - destruct H as (_ & H1 & H2 & _). auto.
  - destruct H as [_ H]. intros rep Hin. destruct (H rep Hin) as [(sk & _ & _ & _ & _ & H1 & _) _]. exact H1.
Qed.
End Prios.
