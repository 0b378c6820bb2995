(** How the two interpreters of a parser are related (C01, C02). *)
From Verif Require Export Fuel.

Section Simulation.
Context {T : Type} {V : nat -> Type}.

Definition not_ok {A} (r : res T A) : Prop :=
  match r with ROk _ => False | _ => True end.

(** what the recovering run [F] does, given the outcome [f] of the plain run *)
Definition sim {A} (rem : option Z) (f : out (sres T A)) (F : out (res T A)) : Prop :=
  match f with
  | NoFuel => F = NoFuel
  | Raise e => F = Raise e
  | Ret (SOk o) => F = Ret (ROk o)
  | Ret (SErr e) =>
      match rem with
      | Some _ => forall r, F = Ret r -> not_ok r
      | None =>
          if er_con e then forall r, F = Ret r -> not_ok r /\ res_con r = true
          else F = Ret (RErr e)
      end
  end.

(** consumption already happened: any [rem] gives a non-Ok result *)
Lemma sim_err_not_ok {A} rem (e : errr) (F : out (res T A)) r :
  sim rem (Ret (SErr e)) F -> F = Ret r -> not_ok r.
Proof.
  unfold sim. destruct rem; auto. destruct (er_con e).
  - intros H Hr. apply H in Hr; tauto.
  - intros -> Hr. inversion Hr; subst; exact I.
Qed.

Lemma sim_err_some {A} z (e : errr) (F : out (res T A)) :
  (forall r, F = Ret r -> not_ok r) -> sim (Some z) (Ret (SErr e)) F.
Proof. intros H; exact H. Qed.

Lemma obind_ret {A B} (m : out A) (f : A -> out B) b :
  obind m f = Ret b -> exists a, m = Ret a /\ f a = Ret b.
Proof. destruct m; simpl; intros; try discriminate; eauto. Qed.

Lemma continue_ret {A B C} (ra : recr T A) ins
    (f : A -> nat -> ctx T -> Z -> out (res T B)) (merge : A -> B -> C) r :
  continue_parse ra ins f merge = Ret r ->
  exists reps, flat_mapM (cont_one ins f merge) (rc_reps ra) = Ret reps /\
    r = RRec (Recd reps (rc_min ra) (rc_loc ra) (rc_exp ra) (rc_con ra)).
Proof.
  unfold continue_parse. intros H. apply obind_ret in H as [reps [H1 H2]].
  exists reps. split; auto. congruence.
Qed.

Lemma continue_not_ok {A B C} (ra : recr T A) ins
    (f : A -> nat -> ctx T -> Z -> out (res T B)) (merge : A -> B -> C) r :
  continue_parse ra ins f merge = Ret r -> not_ok r /\ res_con r = rc_con ra.
Proof. intros H. apply continue_ret in H as [reps [_ ->]]. simpl; auto. Qed.

Lemma res_fmap_ret {A B} (f : A -> out B) (r : res T A) r' :
  res_fmap f r = Ret r' -> (not_ok r -> not_ok r') /\ res_con r' = res_con r.
Proof.
  destruct r; simpl; intros H.
  - apply obind_ret in H as [o' [H1 H2]]. unfold ok_fmap in H1.
    apply obind_ret in H1 as [v [H1 H3]]. inversion H2; inversion H3; subst; auto.
  - inversion H; auto.
  - apply obind_ret in H as [o' [H1 H2]]. unfold rec_fmap in H1.
    apply obind_ret in H1 as [v [H1 H3]]. inversion H2; inversion H3; subst; auto.
Qed.

Lemma not_ok_prepend {A} x b (r : res T A) : not_ok r -> not_ok (res_prepend x b r).
Proof. destruct r; simpl; auto. Qed.
Lemma con_prepend {A} x b (r : res T A) :
  not_ok r -> res_con (res_prepend x b r) = res_con r || b.
Proof.
  destruct r; simpl; try tauto; intros _.
  - unfold er_prepend. destruct (er_con e) eqn:H; simpl; rewrite ?H; auto.
  - destruct (rc_con r) eqn:H; simpl; auto.
Qed.

Lemma sres_prepend_con {A} x b (e : errr) :
  sres_prepend x b (SErr (A:=A) (T:=T) e) = SErr (er_prepend x b e) /\
  er_con (er_prepend x b e) = er_con e || b.
Proof.
  split; auto. unfold er_prepend. destruct (er_con e) eqn:H; simpl; rewrite ?H; auto.
Qed.

(** the sequencing step shared by bind and seq *)
Lemma sim_prepend {A} (rem rem' : option Z) x b (f : out (sres T A)) (F : out (res T A)) :
  sim rem' f F ->
  (b = true \/ rem' = rem) ->
  sim rem (r <- f ;; Ret (sres_prepend x b r)) (r <- F ;; Ret (res_prepend x b r)).
Proof.
  intros H Hb. destruct f as [[o|e]|e|]; simpl in *.
  - rewrite H; simpl. unfold ok_prepend. reflexivity.
  - destruct rem as [z|].
    + intros r Hr. apply obind_ret in Hr as [r0 [H1 H2]]. injection H2 as <-.
      apply not_ok_prepend. eapply sim_err_not_ok; eauto; exact H.
    + assert (Hc : er_con (er_prepend x b e) = er_con e || b)
        by (apply (sres_prepend_con (A:=A) x b e)).
      rewrite Hc. destruct (er_con e || b) eqn:Hcb.
      * intros r Hr. apply obind_ret in Hr as [r0 [H1 H2]]. injection H2 as <-.
        assert (Hn : not_ok r0) by (eapply (sim_err_not_ok rem' e); eauto; exact H).
        split; [apply not_ok_prepend; auto|].
        rewrite con_prepend by auto.
        destruct b; [destruct (res_con r0); auto|].
        destruct Hb as [Hb|Hb]; [discriminate|]. subst rem'.
        rewrite orb_false_r in *. rewrite Hcb in H. apply H in H1. tauto.
      * apply orb_false_iff in Hcb as [He ->].
        destruct Hb as [Hb|Hb]; [discriminate|]. subst rem'.
        rewrite He in H. rewrite H. reflexivity.
  - rewrite H; reflexivity.
  - rewrite H; reflexivity.
Qed.

Lemma sim_fmap {A B} (h : A -> out B) rem (f : out (sres T A)) (F : out (res T A)) :
  sim rem f F ->
  sim rem (r <- f ;; sres_fmap h r) (r <- F ;; res_fmap h r).
Proof.
  intros H. destruct f as [[o|e]|e|]; simpl in *.
  - rewrite H; simpl. unfold ok_fmap. destruct (h (ok_val o)); reflexivity.
  - destruct rem as [z|].
    + intros r Hr. apply obind_ret in Hr as [r0 [H1 H2]].
      apply res_fmap_ret in H2 as [H2 _]. eauto.
    + destruct (er_con e).
      * intros r Hr. apply obind_ret in Hr as [r0 [H1 H2]].
        apply res_fmap_ret in H2 as [H2 ->]. apply H in H1 as [Ha Hb]. auto.
      * rewrite H; reflexivity.
  - rewrite H; reflexivity.
  - rewrite H; reflexivity.
Qed.

(** a mapping of results that preserves the constructor, the consumed flag and
    commutes with the embedding *)
Lemma sim_map {A} rem (h : sres T A -> sres T A) (k : res T A -> res T A) f F :
  (forall o, exists o', h (SOk o) = SOk o' /\ k (ROk o) = ROk o') ->
  (forall e, exists e', h (SErr e) = SErr e' /\ k (RErr e) = RErr e' /\ er_con e' = er_con e) ->
  (forall r, not_ok r -> not_ok (k r) /\ res_con (k r) = res_con r) ->
  sim rem f F ->
  sim rem (r <- f ;; Ret (h r)) (r <- F ;; Ret (k r)).
Proof.
  intros Ho He Hr H. destruct f as [[o|e]|e|]; simpl in *.
  - rewrite H; simpl. destruct (Ho o) as (o' & -> & ->). reflexivity.
  - destruct (He e) as (e' & -> & Hk & Hc).
    destruct rem as [z|].
    + intros r Hr'. apply obind_ret in Hr' as [r0 [H1 H2]].
      injection H2 as <-. apply Hr. eauto.
    + rewrite Hc. destruct (er_con e).
      * intros r Hr'. apply obind_ret in Hr' as [r0 [H1 H2]]. injection H2 as <-.
        apply H in H1 as [Ha Hb]. destruct (Hr r0 Ha). split; auto. congruence.
      * rewrite H; simpl. rewrite Hk. reflexivity.
  - rewrite H; reflexivity.
  - rewrite H; reflexivity.
Qed.

Lemma sim_refl_ok {A} rem (f : out (sres T A)) (F : out (res T A)) :
  F = omap sres_res f ->
  (rem = None -> forall e, f = Ret (SErr e) -> er_con e = true -> False) ->
  sim rem f F.
Proof.
  intros -> H. destruct f as [[o|e]|e|]; simpl; auto.
  destruct rem as [z|].
  - intros r Hr; inversion Hr; exact I.
  - destruct (er_con e) eqn:He; auto. exfalso; eauto.
Qed.

Lemma sim_set_exp {A} rem x (f : out (sres T A)) F :
  sim rem f F -> sim rem (r <- f ;; Ret (sres_set_exp x r)) (r <- F ;; Ret (res_set_exp x r)).
Proof.
  apply sim_map; simpl; intros.
  - eauto.
  - eexists; split; [reflexivity|split; [reflexivity|]].
    unfold er_set_exp; destruct (er_con e) eqn:He; auto.
  - destruct r; simpl in *; try tauto; split; auto.
    unfold er_set_exp; destruct (er_con e) eqn:He; auto.
Qed.

Lemma sim_set_ctx {A} rem x (f : out (sres T A)) F :
  sim rem f F -> sim rem (r <- f ;; Ret (sres_set_ctx x r)) (r <- F ;; Ret (res_set_ctx x r)).
Proof.
  apply sim_map; simpl; intros; eauto.
  destruct r; simpl in *; try tauto; split; auto.
Qed.

(** ** The combinators *)

Lemma sim_alt {A} (pf qf : pfast T A) (pF qF : pfull T A) s pos c ins rem :
  sim None (pf s pos c) (pF s pos c ins None) ->
  sim None (qf s pos c) (qF s pos c ins None) ->
  sim rem (alt_fast pf qf s pos c) (alt_full pF qF s pos c ins rem).
Proof.
  intros Hp Hq. unfold alt_fast, alt_full.
  destruct (pf s pos c) as [[oa|ea]|e|] eqn:Epf; simpl in Hp.
  - rewrite Hp; simpl. reflexivity.
  - destruct (er_con ea) eqn:Eca.
    + simpl. rewrite Eca. simpl.
      assert (Hall : forall r,
        (ra <- pF s pos c ins None;;
         match ra with
         | ROk _ => Ret ra
         | RErr {| er_loc := la; er_exp := xa; er_con := ca |}
         | RRec {| rc_loc := la; rc_exp := xa; rc_con := ca |} =>
           if ca then Ret ra
           else rb <- qF s pos c ins None;;
           if res_con rb then Ret rb else
           let expected := Append xa (res_exp rb) in
           match rb with
           | ROk ob => Ret (ROk (ok_set_exp expected ob))
           | _ => alt_recover pF qF la expected s pos c ins rem
           end
         end) = Ret r -> not_ok r /\ res_con r = true).
      { intros r Hr. apply obind_ret in Hr as [ra [H1 H2]].
        destruct (Hp _ H1) as [Hn Hc].
        destruct ra as [o|[l x cc]|[rs m l x cc]]; simpl in Hn, Hc; try tauto; subst cc;
          inversion H2; subst; simpl; auto. }
      destruct rem; [intros r Hr; apply Hall in Hr; tauto|].
      rewrite Eca. exact Hall.
    + rewrite Hp; simpl. rewrite Eca.
      destruct ea as [la xa ca]; simpl in Eca; subst ca. simpl.
      destruct (qf s pos c) as [[ob|eb]|e|] eqn:Eqf; simpl in Hq.
      * rewrite Hq; simpl. destruct (ok_con ob) eqn:Ecb; reflexivity.
      * destruct (er_con eb) eqn:Ecb.
        { simpl. rewrite Ecb.
          set (X := obind (qF s pos c ins None) _).
          assert (HX : forall r, X = Ret r -> not_ok r /\ res_con r = true).
          { intros r Hr. unfold X in Hr. apply obind_ret in Hr as [rb [H1 H2]].
            destruct (Hq _ H1) as [Hn Hc]. rewrite Hc in H2. inversion H2; subst; auto. }
          clearbody X. simpl.
          destruct rem; [intros r Hr; apply HX in Hr; tauto|].
          rewrite Ecb. exact HX. }
        { rewrite Hq. simpl. rewrite Ecb. simpl.
          destruct rem; simpl; auto.
          intros r Hr. unfold alt_recover in Hr.
          apply obind_ret in Hr as [rra [_ Hr]].
          apply obind_ret in Hr as [rrb [_ Hr]].
          destruct rra, rrb; inversion Hr; exact I. }
      * rewrite Hq; reflexivity.
      * rewrite Hq; reflexivity.
  - rewrite Hp; reflexivity.
  - rewrite Hp; reflexivity.
Qed.

Lemma sim_bind_gen {A B} (f : out (sres T A)) (F : out (res T A)) rem
   (kf : okr T A -> out (sres T B)) (kF : okr T A -> out (res T B))
   (kR : recr T A -> out (res T B)) :
  sim rem f F ->
  (forall o, sim rem (kf o) (kF o)) ->
  (forall rc r, kR rc = Ret r -> not_ok r /\ res_con r = rc_con rc) ->
  sim rem (ra <- f ;; match ra with SErr e => Ret (SErr e) | SOk o => kf o end)
          (ra <- F ;; match ra with RErr e => Ret (RErr e) | RRec ra => kR ra
                               | ROk o => kF o end).
Proof.
  intros H Hk HR. destruct f as [[o|e]|e|]; simpl in *.
  - rewrite H; simpl. apply Hk.
  - assert (HX : forall r, (ra <- F ;; match ra with RErr e => Ret (RErr e)
        | RRec ra => kR ra | ROk o => kF o end) = Ret r ->
        exists r0, F = Ret r0 /\ (not_ok r0 -> not_ok r /\ res_con r = res_con r0)).
    { intros r Hr. apply obind_ret in Hr as [r0 [H1 H2]]. exists r0. split; auto.
      intros Hn. destruct r0; simpl in Hn; try tauto.
      - inversion H2; simpl; auto.
      - apply HR in H2. auto. }
    destruct rem as [z|].
    + intros r Hr. destruct (HX r Hr) as (r0 & H1 & H2). apply H2. eauto.
    + destruct (er_con e).
      * intros r Hr. destruct (HX r Hr) as (r0 & H1 & H2).
        destruct (H _ H1) as [Ha Hb]. destruct (H2 Ha). split; auto; congruence.
      * rewrite H; reflexivity.
  - rewrite H; reflexivity.
  - rewrite H; reflexivity.
Qed.

Lemma sim_bind {A B} (pf : pfast T A) (pF : pfull T A)
   (ff : A -> pfast T B) (fF : A -> pfull T B) s pos c ins rem :
  sim rem (pf s pos c) (pF s pos c ins rem) ->
  (forall v pos c rem, sim rem (ff v s pos c) (fF v s pos c ins rem)) ->
  sim rem (bind_fast pf ff s pos c) (bind_full pF fF s pos c ins rem).
Proof.
  intros Hp Hf. unfold bind_fast, bind_full.
  apply sim_bind_gen; auto.
  - intros o. destruct (ok_con o) eqn:Hc.
    + apply sim_prepend with (rem' := Some ins); auto.
    + apply sim_prepend with (rem' := rem); auto.
  - intros. eapply continue_not_ok; eauto.
Qed.

Lemma obind_assoc {A B C} (m : out A) (f : A -> out B) (g : B -> out C) :
  obind (obind m f) g = obind m (fun x => obind (f x) g).
Proof. destruct m; reflexivity. Qed.

Lemma sim_seq {A B C} (pf : pfast T A) (pF : pfull T A)
   (qf : pfast T B) (qF : pfull T B) (merge : A -> B -> C) s pos c ins rem :
  sim rem (pf s pos c) (pF s pos c ins rem) ->
  (forall pos c rem, sim rem (qf s pos c) (qF s pos c ins rem)) ->
  sim rem (seq_fast pf qf merge s pos c) (seq_full pF qF merge s pos c ins rem).
Proof.
  intros Hp Hq. unfold seq_fast, seq_full.
  apply sim_bind_gen; auto.
  - intros o. rewrite <- !obind_assoc.
    apply sim_prepend with (rem' := if ok_con o then Some ins else rem).
    + apply sim_fmap. apply Hq.
    + destruct (ok_con o); auto.
  - intros. eapply continue_not_ok; eauto.
Qed.

Lemma sim_maybe {A} (pf : pfast T A) (pF : pfull T A) s pos c ins rem :
  sim None (pf s pos c) (pF s pos c ins None) ->
  sim rem (maybe_fast pf s pos c) (maybe_full pF s pos c ins rem).
Proof.
  intros H. unfold maybe_fast, maybe_full.
  destruct (pf s pos c) as [[o|e]|e|] eqn:Ef; simpl in H.
  - rewrite H. reflexivity.
  - destruct (er_con e) eqn:Ec.
    + simpl. rewrite Ec.
      assert (HX : forall r, (r <- pF s pos c ins None;;
         match r with
         | ROk _ => res_fmap (fun v => Ret (Some v)) r
         | _ => if res_con r then res_fmap (fun v => Ret (Some v)) r
                else Ret (ROk (Ok None pos c (res_exp r) false))
         end) = Ret r -> not_ok r /\ res_con r = true).
      { intros r Hr. apply obind_ret in Hr as [r0 [H1 H2]].
        destruct (H _ H1) as [Hn Hc]. rewrite Hc in H2.
        assert (H3 : res_fmap (fun v => Ret (Some v)) r0 = Ret r)
          by (destruct r0; auto).
        apply res_fmap_ret in H3 as [H3 H4]. split; auto. congruence. }
      simpl. destruct rem; [intros r Hr; apply HX in Hr; tauto|].
      rewrite Ec. exact HX.
    + rewrite H; simpl. rewrite Ec. simpl. reflexivity.
  - rewrite H; reflexivity.
  - rewrite H; reflexivity.
Qed.

Lemma sim_many {A} (pf : pfast T A) (pF : pfull T A) s ins rem :
  (forall pos c, sim None (pf s pos c) (pF s pos c ins None)) ->
  forall n con v pos c,
  sim rem (many_fast pf n con v s pos c) (many_full pF n con v s pos c ins).
Proof.
  intros H n. induction n as [|n IH]; intros con v pos c; simpl; [reflexivity|].
  specialize (H pos c).
  destruct (pf s pos c) as [[o|e]|e|] eqn:Ef; simpl in H.
  - rewrite H; simpl. destruct (ok_con o); [apply IH|reflexivity].
  - destruct (er_con e) eqn:Ec.
    + simpl. rewrite Ec.
      match goal with |- sim _ _ ?X => 
        assert (HX : forall r, X = Ret r -> not_ok r /\ res_con r = true) end.
      { intros r Hr. apply obind_ret in Hr as [r0 [H1 H2]].
        destruct (H _ H1) as [Hn Hc]. destruct r0; simpl in *; try tauto.
        - rewrite Hc in H2. inversion H2; subst; auto.
        - apply continue_not_ok in H2. rewrite Hc in H2. auto. }
      simpl. destruct rem; [intros r Hr; apply HX in Hr; tauto|].
      rewrite Ec. exact HX.
    + rewrite H; simpl. rewrite Ec. simpl. reflexivity.
  - rewrite H; reflexivity.
  - rewrite H; reflexivity.
Qed.

Lemma sim_attempt {A} (pf : pfast T A) (pF : pfull T A) s pos c ins rem :
  sim rem (pf s pos c) (pF s pos c ins rem) ->
  sim rem (attempt_fast pf s pos c) (attempt_full pf pF s pos c ins rem).
Proof.
  intros H. unfold attempt_fast, attempt_full. destruct rem as [z|].
  - destruct (pf s pos c) as [[o|e]|e|] eqn:Ef; simpl in *; auto.
  - destruct (pf s pos c) as [[o|e]|e|] eqn:Ef; simpl in *; auto.
Qed.

Lemma sim_recover {A} (pf : pfast T A) (pF : pfull T A) s pos c ins rem :
  sim rem (pf s pos c) (pF s pos c ins rem) ->
  sim rem (recover_fast pf s pos c) (recover_full pF s pos c ins rem).
Proof.
  intros H. unfold recover_fast, recover_full.
  destruct (pf s pos c) as [[o|e]|e|] eqn:Ef; simpl in *.
  - rewrite H; reflexivity.
  - assert (HX : forall r, (r <- pF s pos c ins rem;;
      match r with
      | RRec r0 => Ret (RRec (Recd (map rep_set_prio (rc_reps r0)) (rc_min r0)
          (rc_loc r0) (rc_exp r0) (rc_con r0)))
      | _ => Ret r end) = Ret r -> exists r0, pF s pos c ins rem = Ret r0 /\
        (not_ok r0 -> not_ok r) /\ res_con r = res_con r0).
    { intros r Hr. apply obind_ret in Hr as [r0 [H1 H2]]. exists r0; split; auto.
      destruct r0; inversion H2; subst; simpl; auto. }
    destruct rem as [z|].
    + intros r Hr. destruct (HX r Hr) as (r0 & H1 & H2 & _). eauto.
    + destruct (er_con e).
      * intros r Hr. destruct (HX r Hr) as (r0 & H1 & H2 & ->).
        apply H in H1. tauto.
      * rewrite H; reflexivity.
  - rewrite H; reflexivity.
  - rewrite H; reflexivity.
Qed.

Lemma sim_recover_with {A} (pf : pfast T A) (pF : pfull T A) mk lab s pos c ins rem :
  sim rem (pf s pos c) (pF s pos c ins rem) ->
  sim rem (recover_with_fast pf s pos c) (recover_with_full pF mk lab s pos c ins rem).
Proof.
  intros H. unfold recover_with_fast, recover_with_full. destruct rem as [z|]; auto.
  destruct (pf s pos c) as [[o|e]|e|] eqn:Ef; simpl in *.
  - rewrite H; reflexivity.
  - intros r Hr. apply obind_ret in Hr as [r0 [H1 H2]]. apply H in H1.
    destruct r0 as [|er|rc]; simpl in *; try tauto.
    + destruct (er_con er); [inversion H2; exact I|].
      destruct (Z.eqb z 0); [inversion H2; exact I|].
      apply obind_ret in H2 as [x [_ H2]]. inversion H2; exact I.
    + destruct (rc_con rc); [inversion H2; exact I|].
      destruct (Z.eqb z 0); [inversion H2; exact I|].
      apply obind_ret in H2 as [x [_ H2]]. inversion H2; exact I.
  - rewrite H; reflexivity.
  - rewrite H; reflexivity.
Qed.

Ltac rem_err :=
  match goal with
  | |- sim ?rem (Ret (SErr _)) _ =>
      destruct rem; simpl; [|reflexivity];
      let r := fresh in let H := fresh in intros r H; 
      repeat (apply obind_ret in H as [? [_ H]]);
      repeat match type of H with match ?x with _ => _ end = _ => destruct x end;
      inversion H; exact I
  end.

Lemma sim_fast_full (E : env T V) n : forall A (g : gram T V A) s pos c ins rem,
  sim rem (fast E n g s pos c) (full E n g s pos c ins rem).
Proof.
  induction n as [|n IH]; intros A g s pos c ins rem; simpl; [(simpl; reflexivity)|].
  destruct g.
  - (simpl; reflexivity).
  - unfold purefn_fast, purefn_full. destruct (f tt); (simpl; reflexivity).
  - unfold unexpected_fast, unexpected_full. rem_err.
  - unfold eof_fast, eof_full. destruct (Nat.eqb pos (List.length s)); [(simpl; reflexivity)|].
    rem_err.
  - unfold satisfy_fast, satisfy_full.
    destruct (probe_tok test s pos) as [[t|]|e|]; cbn [obind]; try (simpl; reflexivity). rem_err.
  - unfold sym_fast, sym_full, probe_sym.
    destruct (nth_error s pos) as [t|]; cbn [obind]; [destruct (teq t x)|]; cbn [obind]; try (simpl; reflexivity);
      rem_err.
  - unfold literal_fast, literal_full. destruct (starts_with teq x s pos); [(simpl; reflexivity)|].
    cbv zeta. rem_err.
  - unfold regexp_fast, regexp_full. destruct (probe_re m s pos) as [[e v]|]; [(simpl; reflexivity)|].
    cbv zeta. rem_err.
  - apply sim_fmap. apply IH.
  - apply sim_alt; apply IH.
  - apply sim_bind; intros; apply IH.
  - apply sim_seq; intros; apply IH.
  - apply sim_maybe; apply IH.
  - apply sim_many; intros; apply IH.
  - apply sim_attempt; apply IH.
  - apply sim_set_exp; apply IH.
  - apply sim_recover; apply IH.
  - apply sim_recover_with; apply IH.
  - apply sim_recover_with; apply IH.
  - apply sim_set_ctx. apply IH.
  - unfold aligned_fast, aligned_full. cbv zeta. destruct (Z.eqb _ _); [apply IH|rem_err].
  - unfold indented_fast, indented_full. cbv zeta.
    destruct (Z.eqb _ _); [apply sim_set_ctx; apply IH|rem_err].
  - apply IH.
  - (simpl; reflexivity).
Qed.

(** ** Consequences used elsewhere *)
Corollary full_ok_iff (E : env T V) n A (g : gram T V A) s pos c ins rem o :
  full E n g s pos c ins rem = Ret (ROk o) <-> fast E n g s pos c = Ret (SOk o).
Proof.
  pose proof (sim_fast_full E n A g s pos c ins rem) as H. split; intros H1.
  - destruct (fast E n g s pos c) as [[o'|e]|e|]; simpl in H; try congruence.
    exfalso. eapply (sim_err_not_ok rem e _ (ROk o)); eauto.
  - rewrite H1 in H. exact H.
Qed.

(** with [rem = None] an unconsumed non-success is the plain Error *)
Corollary full_none_unconsumed (E : env T V) n A (g : gram T V A) s pos c ins r :
  full E n g s pos c ins None = Ret r -> not_ok r -> res_con r = false ->
  exists e, r = RErr e /\ fast E n g s pos c = Ret (SErr e) /\ er_con e = false.
Proof.
  pose proof (sim_fast_full E n A g s pos c ins None) as H. intros H1 Hn Hc.
  destruct (fast E n g s pos c) as [[o'|e]|e|]; simpl in H.
  - rewrite H1 in H; inversion H; subst; simpl in Hn; tauto.
  - destruct (er_con e) eqn:Ec.
    + apply H in H1 as [_ H1]. congruence.
    + exists e. rewrite H1 in H. inversion H; auto.
  - congruence.
  - congruence.
Qed.

Corollary full_none_rec_con (E : env T V) n A (g : gram T V A) s pos c ins rc :
  full E n g s pos c ins None = Ret (RRec rc) -> rc_con rc = true.
Proof.
  intros H. destruct (rc_con rc) eqn:Hc; auto.
  destruct (full_none_unconsumed E n A g s pos c ins _ H I Hc) as (e & He & _).
  discriminate.
Qed.
End Simulation.
