(** Proofs for C75: ways of mending an input with a missing or superfluous token *)
From Verif Require Import Fuel ApiSpec ApiProofs Locations PegSpec PropsPeg DiagSpec DiagProofs PropsTerm PropsTotal YamlishErr LL PropsLL Mend.
From Verif Require Export MissSpec MendSpec.
Import ListNotations.

Section Viable.
Context {T : Type} {V : nat -> Type}.
Variable E : env T V.
Notation gram := (gram T V).

Lemma vb_seq_l A B C (p : gram A) (q : gram B) (f : A -> B -> C) u :
  (exists w v, sentence E q w v) -> viable E p u -> viable E (GSeq p q f) u.
Proof. intros (w & v & H) (w' & v' & H'). exists (w' ++ w), (f v' v). rewrite app_assoc. apply se_seq; auto. Qed.
Lemma vb_seq_r A B C (p : gram A) (q : gram B) (f : A -> B -> C) w v u :
  sentence E p w v -> viable E q u -> viable E (GSeq p q f) (w ++ u).
Proof. intros H (w' & v' & H'). exists w', (f v v'). rewrite <- app_assoc. apply se_seq; auto. Qed.
Lemma vb_bind_l A B (p : gram A) (f : A -> gram B) u :
  (forall w v, sentence E p w v -> exists w' v', sentence E (f v) w' v') -> viable E p u -> viable E (GBind p f) u.
Proof. intros H (w' & v' & H'). destruct (H _ _ H') as (w & v & K). exists (w' ++ w), v. rewrite app_assoc. eapply se_bind; eauto. Qed.
Lemma vb_bind_r A B (p : gram A) (f : A -> gram B) w v u :
  sentence E p w v -> viable E (f v) u -> viable E (GBind p f) (w ++ u).
Proof. intros H (w' & v' & H'). exists w', v'. rewrite <- app_assoc. eapply se_bind; eauto. Qed.
Lemma vb_many_l A (p : gram A) u : viable E p u -> viable E (GMany p) u.
Proof. intros (w' & v' & H'). exists w', [v']. rewrite <- (app_nil_r (u ++ w')). apply se_many; auto. apply la_many_nil. Qed.
Lemma vb_many_r A (p : gram A) w v u :
  sentence E p w v -> viable E (GMany p) u -> viable E (GMany p) (w ++ u).
Proof. intros H (w' & v' & H'). exists w', (v :: v'). rewrite <- app_assoc. apply se_many; auto. Qed.
Lemma vb_maybe A (p : gram A) u : viable E p u -> viable E (GMaybe p) u.
Proof. intros (w' & v' & H'). exists w', (Some v'). apply la_maybe_some; auto. Qed.
Lemma vb_alt_l A (p q : gram A) u : viable E p u -> viable E (GAlt p q) u.
Proof. intros (w' & v' & H'). exists w', v'. apply la_alt_l; auto. Qed.
Lemma vb_alt_r A (p q : gram A) u : viable E q u -> viable E (GAlt p q) u.
Proof. intros (w' & v' & H'). exists w', v'. apply la_alt_r; auto. Qed.
Lemma vb_first A (p : gram A) t : first E p t -> viable E p [t].
Proof. intros (w & v & H). exists w, v. exact H. Qed.
Lemma vb_prefix A (p : gram A) u u' : viable E p (u ++ u') -> viable E p u.
Proof. intros (w & v & H). exists (u' ++ w), v. rewrite app_assoc. exact H. Qed.
End Viable.

Section Miss.
Context {T : Type} {V : nat -> Type}.
Variable E : env T V.
Notation gram := (gram T V).
Variables (s : list T) (get : loc -> list T -> nat -> loc) (at_ : nat -> loc).
Hypothesis HE : wf_env E.
Hypothesis Hco : cohere get s at_.
Notation lay := (exactpos s at_).
Hypothesis HG : forall d, gok lay (E d).
Variable F : nat -> option T -> Prop.
Hypothesis HF : forall d, ll1 E F (E d) (F d).
Notation len := (List.length s).
Notation peg := (peg E s (fun i => loc_col (at_ i))).
Definition fit B (q : gram B) : Prop :=
  (wf q /\ completable_node E B q /\ quiet_node E B q) /\ (acc_node E B q /\ gok lay q) /\
  one_token_node B q /\ eof_free_node B q.
Lemma occurs_gok B (q : gram B) A (g : gram A) : occurs E q A g -> gok lay g -> gok lay q.
Proof using HG. intros Ho. induction Ho; intros Hg; auto; try (apply IHHo; apply Hg). Qed.
Notation fits := (everywhere E fit).
Lemma fit_all A (p : gram A) : fits p -> wf p /\ everywhere E (completable_node E) p /\ gok lay p.
Proof.
  intros H. split; [apply (ev_here E _ _ _ H)|]. split; [intros B q Ho; apply (H B q Ho)|]. apply (ev_here E _ _ _ H).
Qed.
Lemma outcome A (p : gram A) m i : fits p -> i <= len -> exists o, diag E s at_ A p m i o /\ forall e, o <> DExn e.
Proof using HE HG Hco.
  intros H Hi. destruct (fit_all _ _ H) as (H1 & H2 & H3).
  assert (Q : everywhere E (quiet_node E) p) by (intros B q Ho; apply (H B q Ho)).
  assert (G : guarded E p) by (apply guarded_everywhere; intros B q Ho; apply (H B q Ho)).
  set (c := Ctx (T:=T) m (at_ i) get).
  assert (Hc : pos_Cok (T:=T) get at_ i c) by (split; [reflexivity|right; exists i; auto]).
  destruct (fast_term E HE s (List.length s) i ltac:(lia) Hi A p (adm_of E HE _ p H1 (quiet_halting E _ _ Q) G) c) as [n Hn].
  destruct (fast E n p s i c) as [r|e|] eqn:Hf; [| |congruence].
  - exists (match r with SOk o => DSucc (ok_val o) (ok_pos o) (ok_exp o) | SErr e => DFail (er_con e) (er_loc e) (er_exp e) end).
    split; [|destruct r; discriminate]. apply (diag_sound E s get at_ lay Hco (fun x => x) HG n A p i c _ H3 Hi Hc).
    rewrite Hf. destruct r; reflexivity.
  - exfalso. apply (fast_silent E HE s n A p (calm_of E HE _ p H1 Q) i c Hi e Hf).
Qed.
Lemma rd A (p : gram A) m i K w rest v : fits p -> i <= len -> ll1 E F p K -> skipn i s = w ++ rest ->
  K (hd_error rest) -> sentence E p w v -> peg A p m i (PSucc v (i + List.length w)).
Proof using HE HG Hco HF.
  intros H Hi HL Hs HK Hv. destruct (outcome _ p m i H Hi) as (o & Ho & Hx). destruct (fit_all _ _ H) as (H1 & H2 & H3).
  destruct (ll1_reads E HE F HF s at_ A p m i o Ho H1 Hi H2 K w rest v HL Hs HK Hv) as [[X ->]|[e ->]]; [|destruct (Hx e eq_refl)].
  apply (diag_peg _ _ _ _ _ _ _ _ _ _ Ho).
Qed.
Lemma nope A (p : gram A) m i : fits p -> i <= len -> ~ nullable E p -> ~ first_is E p (nth_error s i) -> peg A p m i (PFail false).
Proof using HE HG Hco.
  intros H Hi Hn Hf. destruct (outcome _ p m i H Hi) as (o & Ho & Hx). destruct (fit_all _ _ H) as (H1 & H2 & H3).
  destruct (predict E HE s at_ A p m i o Ho H1 Hi H2 Hn Hf) as [(l & X & ->)|[e ->]]; [|destruct (Hx e eq_refl)].
  apply (diag_peg _ _ _ _ _ _ _ _ _ _ Ho).
Qed.

Lemma noticed_sub A B (g : gram A) (p : gram B) w u rest : noticed E g (w ++ u) rest ->
  (forall t, viable E p (u ++ [t]) -> viable E g (w ++ u ++ [t])) -> noticed E p u rest.
Proof. destruct rest as [|t rest]; cbn; auto. intros H K L. apply H. rewrite <- app_assoc. auto. Qed.
Lemma noticed_first A (p : gram A) rest i : noticed E p [] rest -> skipn i s = rest -> ~ first_is E p (nth_error s i).
Proof.
  intros H Hs. rewrite <- hd_skipn, Hs. destruct rest as [|t rest]; cbn; [tauto|]. intros K. apply H. apply vb_first. exact K.
Qed.

(** what was read stays read when something unexpected follows *)
Lemma stop A (p : gram A) W v : lang E A p W v -> forall w, W = map inl w -> forall m ii K rest, fits p -> ii <= len ->
  ll1 E F p K -> skipn ii s = w ++ rest -> noticed E p w rest -> peg A p m ii (PSucc v (ii + List.length w)).
Proof using HE HG Hco HF.
  induction 1; intros w0 HW m ii K rest Hfit Hi HL Hs Hn; cbn [ll1] in HL;
    try (symmetry in HW; apply map_inl_nil in HW; subst w0; cbn [List.length app] in *; rewrite Nat.add_0_r).
  - constructor.
  - constructor; auto.
  - exfalso. apply (ev_here E _ _ _ Hfit).
  - symmetry in HW. apply map_inl_one in HW. subst w0. constructor; auto. rewrite <- hd_skipn, Hs. reflexivity.
  - symmetry in HW. apply map_inl_one in HW. subst w0. constructor; auto. rewrite <- hd_skipn, Hs. reflexivity.
  - apply map_inl_inj in HW. subst w0. rewrite (Forall2_len _ _ _ H). constructor. unfold stands_at. rewrite Hs.
    apply prefix_of_forall2. auto.
  - exfalso. apply (ev_here E _ _ _ Hfit).
  - (* fmap *) econstructor; [|eassumption]. eapply IHlang; eauto using ev_fmap.
    apply (noticed_sub _ _ _ _ [] w0 rest Hn). intros t (w' & u & L).
    destruct (proj1 (proj2 (proj1 (ev_here E _ _ _ Hfit))) _ _ L) as [u' Hu]. exists w', u'. cbn. eapply la_fmap; eauto.
  - (* alt *) destruct HL as (L1 & L2 & L3 & L4). apply pg_alt_l. eapply IHlang; eauto using ev_alt_l.
    apply (noticed_sub _ _ _ _ [] w0 rest Hn). intros t. apply vb_alt_l.
  - destruct HL as (L1 & L2 & L3 & L4). apply pg_alt_r.
    + apply nope; eauto using ev_alt_l. destruct w0 as [|t w0].
      * eapply noticed_first; [|exact Hs]. apply (noticed_sub _ _ _ _ [] [] rest Hn). intros t. apply vb_alt_l.
      * rewrite <- hd_skipn, Hs. cbn. intros Q. apply (L4 (Some t) Q). left. exists w0, v. subst w. exact H.
    + eapply IHlang; eauto using ev_alt_r. apply (noticed_sub _ _ _ _ [] w0 rest Hn). intros t. apply vb_alt_r.
  - (* bind *) symmetry in HW. apply map_inl_app in HW as (u1 & u2 & -> & -> & ->). destruct HL as (L1 & L2).
    rewrite <- app_assoc in Hs. destruct (skipn_next _ _ _ _ Hi Hs) as [Hs' Hi'].
    assert (P2 : peg B (f v) m (ii + List.length u1) (PSucc v' (ii + List.length u1 + List.length u2))).
    { eapply IHlang2; eauto using ev_bind_r. apply (noticed_sub _ _ _ _ u1 u2 rest Hn). intros t. apply vb_bind_r. auto. }
    assert (P1 : peg A p m ii (PSucc v (ii + List.length u1))).
    { destruct u2 as [|t u2].
      - eapply IHlang1; eauto using ev_bind_l. rewrite app_nil_r in Hn. cbn [app]. apply (noticed_sub _ _ _ _ [] u1 rest Hn). intros t.
        apply vb_bind_l. apply (proj1 (proj2 (proj1 (ev_here E _ _ _ Hfit)))).
      - eapply rd; [eapply ev_bind_l; eauto|auto|exact L1|exact Hs| |exact H]. exists u1, v. split; auto. left. exists u2, v'. exact H0. }
    rewrite app_length, Nat.add_assoc. exact (pg_bind E s _ A B p f m ii v _ _ P1 P2).
  - (* seq *) symmetry in HW. apply map_inl_app in HW as (u1 & u2 & -> & -> & ->). destruct HL as (L1 & L2).
    rewrite <- app_assoc in Hs. destruct (skipn_next _ _ _ _ Hi Hs) as [Hs' Hi'].
    assert (P2 : peg B q m (ii + List.length u1) (PSucc v' (ii + List.length u1 + List.length u2))).
    { eapply IHlang2; eauto using ev_seq_r. apply (noticed_sub _ _ _ _ u1 u2 rest Hn). intros t. eapply vb_seq_r. exact H. }
    assert (P1 : peg A p m ii (PSucc v (ii + List.length u1))).
    { destruct u2 as [|t u2].
      - eapply IHlang1; eauto using ev_seq_l. rewrite app_nil_r in Hn. cbn [app]. apply (noticed_sub _ _ _ _ [] u1 rest Hn). intros t.
        apply vb_seq_l. apply (proj1 (proj2 (proj1 (ev_here E _ _ _ Hfit)))).
      - eapply rd; [eapply ev_seq_l; eauto|auto|exact L1|exact Hs| |exact H]. left. exists u2, v'. exact H0. }
    rewrite app_length, Nat.add_assoc. exact (pg_seq E s _ A B C p q merge m ii v _ _ P1 P2).
  - (* maybe *) destruct HL as (L1 & L2 & L3). apply pg_maybe_none. apply nope; eauto using ev_maybe. eapply noticed_first; [|exact Hs].
    apply (noticed_sub _ _ _ _ [] [] rest Hn). intros t. apply vb_maybe.
  - destruct HL as (L1 & L2 & L3). apply pg_maybe. eapply IHlang; eauto using ev_maybe.
    apply (noticed_sub _ _ _ _ [] w0 rest Hn). intros t. apply vb_maybe.
  - (* many *) destruct HL as (L1 & L2 & L3). eapply pg_many_stop. apply nope; eauto using ev_many. eapply noticed_first; [|exact Hs].
    apply (noticed_sub _ _ _ _ [] [] rest Hn). intros t. apply vb_many_l.
  - symmetry in HW. apply map_inl_app in HW as (u1 & u2 & -> & -> & ->). pose proof HL as (L1 & L2 & L3).
    rewrite <- app_assoc in Hs. destruct (skipn_next _ _ _ _ Hi Hs) as [Hs' Hi'].
    assert (N1 : u1 <> []) by (intros ->; apply L2; exists v; exact H).
    assert (P2 : peg _ (GMany p) m (ii + List.length u1) (PSucc l (ii + List.length u1 + List.length u2))).
    { eapply IHlang2; eauto. apply (noticed_sub _ _ _ _ u1 u2 rest Hn). intros t. eapply vb_many_r. exact H. }
    assert (P1 : peg A p m ii (PSucc v (ii + List.length u1))).
    { destruct u2 as [|t u2].
      - eapply IHlang1; eauto using ev_many. rewrite app_nil_r in Hn. cbn [app]. apply (noticed_sub _ _ _ _ [] u1 rest Hn). intros t.
        apply vb_many_l.
      - eapply rd; [eapply ev_many; eauto|auto|exact L1|exact Hs| |exact H]. left. cbn.
        apply (sent_inv E _ _ (t :: u2) l) in H0. destruct H0 as [[Q _]|(a & b & y & z & Q & _ & Q' & _)]; [discriminate|].
        destruct a as [|t' a]; [destruct L2; exists y; exact Q'|]. injection Q as <- _. exists a, y. exact Q'. }
    rewrite app_length, Nat.add_assoc. apply (pg_many_more E s _ A p m ii v (ii + List.length u1) l); [|exact P1|exact P2].
    destruct u1; [congruence|cbn; lia].
  - (* attempt *) exfalso. apply (ev_here E _ _ _ Hfit).
  - (* label *) apply pg_label. eapply IHlang; eauto using ev_label.
    apply (noticed_sub _ _ _ _ [] w0 rest Hn). intros t (w' & u & L). exists w', u. apply la_label. exact L.
  - apply pg_recover. eapply IHlang; eauto using ev_recover.
    apply (noticed_sub _ _ _ _ [] w0 rest Hn). intros t (w' & u & L). exists w', u. apply la_recover. exact L.
  - apply pg_with. eapply IHlang; eauto using ev_with.
    apply (noticed_sub _ _ _ _ [] w0 rest Hn). intros t (w' & u & L). exists w', u. apply la_with. exact L.
  - destruct w0; discriminate.
  - apply pg_withfn. eapply IHlang; eauto using ev_withfn.
    apply (noticed_sub _ _ _ _ [] w0 rest Hn). intros t (w' & u & L). exists w', u. apply la_withfn. exact L.
  - destruct w0; discriminate.
  - destruct HL.
  - destruct HL.
  - destruct HL.
  - (* delay *) apply pg_delay. eapply IHlang; eauto using ev_delay.
    apply (noticed_sub _ _ _ _ [] w0 rest Hn). intros t (w' & u & L). exists w', u. apply la_delay. exact L.
Qed.

Variable x : T.
Lemma split_at (a : list T) b u1 u2 : a ++ x :: b = u1 ++ u2 ->
  (exists c, u1 = a ++ x :: c /\ b = c ++ u2) \/ (exists c, a = u1 ++ c /\ u2 = c ++ x :: b).
Proof.
  revert u1. induction a as [|z a IH]; intros u1 H.
  - destruct u1 as [|z u1]; [right; exists []; auto|]. injection H as <- ->. left. exists u1. auto.
  - destruct u1 as [|z' u1]; [right; exists (z :: a); auto|]. injection H as <- H.
    destruct (IH u1 H) as [(c & -> & ->)|(c & -> & ->)]; [left|right]; exists c; auto.
Qed.

(** In the input, [tail] follows [w1] instead of [x :: w2 ++ rest]; it begins
    with [gap].  No token of [front] may follow [w1]; the token that does is one of them. *)
Section Gap.
Variables (gap tail front : list T) (ins : Z) (cost : nat) (deed : rop -> Prop) (okz : Z -> Prop).
Hypothesis Hfront : match tail with [] => True | t :: _ => In t front end.
Hypothesis Hins : okz ins.
Definition NV {A} (g : gram A) (w : list T) : Prop := forall z, In z front -> ~ viable E g (w ++ [z]).
Definition good {A} (y : mended A) (p : nat) (v : A) (e : nat) : Prop :=
  y_cost y = cost /\ y_val y = v /\ y_pos y = e /\ exists o, y_ops y = [(o, at_ p)] /\ deed o.
Definition is_leaf {A} (q : gram A) : Prop :=
  match q with GSatisfy _ | GSym _ _ _ | GLiteral _ _ _ => True | _ => False end.
Variable P : forall B, gram B -> Prop.
Hypothesis Hap : forall B q, P B q -> apart_node E x B q.
Hypothesis leaf : forall A (q : gram A) m i left v, is_leaf q -> fits q -> P A q -> sentence E q [x] v ->
  i <= len -> skipn i s = tail -> NV q [] -> okz left ->
  exists y, mend E s at_ A q m i ins (Some left) y /\ good y i v (i + List.length gap).

Lemma NV_noticed A (g : gram A) w : NV g w -> noticed E g w tail.
Proof using Hfront. clear leaf. intros H. destruct tail as [|t l]; cbn; auto. Qed.
Lemma NV_sub A B (g : gram A) (p : gram B) w u : NV g (w ++ u) ->
  (forall t, viable E p (u ++ [t]) -> viable E g (w ++ u ++ [t])) -> NV p u.
Proof. intros H K z Hz L. apply (H z Hz). rewrite <- app_assoc. auto. Qed.

Lemma lone w1 w2 (t : T) : [inl t] = map (@inl T string) (w1 ++ x :: w2) -> w1 = [] /\ w2 = [] /\ t = x.
Proof.
  intros H. symmetry in H. apply map_inl_one in H. destruct w1 as [|z w1]; cbn in H.
  - injection H as <- ->. auto.
  - injection H as _ H. destruct w1; discriminate.
Qed.
Lemma good_with A B (y : mended A) p v e (w : B) : good y p v e -> good (y_with y w) p w e.
Proof. intros (H1 & H2 & H3 & H4). split; auto. Qed.
Lemma good_read A B C (f : A -> B -> C) (y : mended A) p v e (w : B) k : good y p v e -> good (y_then_read ins f y w k) p (f v w) k.
Proof. intros (H1 & <- & H3 & H4). repeat split; auto. Qed.

Theorem miss A (g : gram A) W v : lang E A g W v -> forall w1 w2, W = map inl (w1 ++ x :: w2) ->
  forall m ii K rest rem, fits g -> everywhere E P g -> ii <= len -> ll1 E F g K ->
  skipn ii s = w1 ++ tail -> tail = gap ++ w2 ++ rest -> K (hd_error rest) -> NV g w1 ->
  (w1 = [] -> exists left, rem = Some left /\ okz left) ->
  exists y, mend E s at_ A g m ii ins rem y /\
    good y (ii + List.length w1) v (ii + List.length w1 + List.length gap + List.length w2).
Proof using All.
  induction 1; intros w1' w2' HW m ii K rest rem Hfit HP Hi HL Hs Ht HK Hn Hr; cbn [ll1] in HL;
    try (destruct w1'; discriminate).
  - (* satisfy *) apply lone in HW as (-> & -> & ->). destruct (Hr eq_refl) as (left & -> & Hl). cbn [List.length app] in *. rewrite !Nat.add_0_r.
    apply leaf; try exact I; try assumption; [apply (ev_here E _ _ _ HP)|]. apply (la_sat E test x H).
  - apply lone in HW as (-> & -> & ->). destruct (Hr eq_refl) as (left & -> & Hl). cbn [List.length app] in *. rewrite !Nat.add_0_r.
    apply leaf; try exact I; try assumption; [apply (ev_here E _ _ _ HP)|]. apply (la_sym E teq x0 l x H).
  - apply map_inl_inj in HW. subst w.
    assert (L : List.length x0 = 1) by apply (ev_here E _ _ _ Hfit).
    pose proof (Forall2_len _ _ _ H) as L'. rewrite app_length in L'. cbn in L'.
    destruct w1'; [|cbn in L'; lia]. destruct w2'; [|cbn in L'; lia].
    destruct (Hr eq_refl) as (left & -> & Hl). cbn [List.length app] in *. rewrite !Nat.add_0_r.
    apply leaf; try exact I; try assumption; [apply (ev_here E _ _ _ HP)|]. apply (la_lit E teq x0 l [x] H).
  - exfalso. apply (ev_here E _ _ _ Hfit).
  - (* fmap *) destruct (IHlang w1' w2' HW m ii K rest rem) as (y & My & Gy); eauto using ev_fmap.
    { apply (NV_sub _ _ _ _ [] w1' Hn). intros t (w' & u & L).
      destruct (proj1 (proj2 (proj1 (ev_here E _ _ _ Hfit))) _ _ L) as [u' Hu]. exists w', u'. cbn. eapply la_fmap; eauto. }
    exists (y_with y v'). split; [|eapply good_with; eauto]. apply md_fmap; auto. destruct Gy as (_ & -> & _). auto.
  - (* alt *) destruct HL as (L1 & L2 & L3 & L4).
    assert (N : w1' <> []).
    { intros ->. apply (proj1 (Hap _ _ (ev_here E _ _ _ HP))). exists w2', v. subst w. exact H. }
    destruct (IHlang w1' w2' HW m ii K rest None) as (y & My & Gy); eauto using ev_alt_l; [|congruence|].
    { apply (NV_sub _ _ _ _ [] w1' Hn). intros t. apply vb_alt_l. }
    exists y. split; auto. apply md_alt_l. auto.
  - destruct HL as (L1 & L2 & L3 & L4).
    assert (N : w1' <> []).
    { intros ->. apply (proj2 (Hap _ _ (ev_here E _ _ _ HP))). exists w2', v. subst w. exact H. }
    destruct (IHlang w1' w2' HW m ii K rest None) as (y & My & Gy); eauto using ev_alt_r; [|congruence|].
    { apply (NV_sub _ _ _ _ [] w1' Hn). intros t. apply vb_alt_r. }
    exists y. split; auto. apply md_alt_r; auto. apply nope; eauto using ev_alt_l.
    destruct w1' as [|t w1']; [congruence|]. rewrite <- hd_skipn, Hs. cbn. intros Q. apply (L4 (Some t) Q). left.
    exists (w1' ++ x :: w2'), v. subst w. exact H.
  - (* bind *) symmetry in HW. apply map_inl_app in HW as (u1 & u2 & HW & -> & ->). destruct HL as (L1 & L2).
    apply split_at in HW as [(c & -> & ->)|(c & -> & ->)].
    + assert (Ht' : tail = gap ++ c ++ (u2 ++ rest)) by (rewrite Ht, <- app_assoc; reflexivity).
      destruct (IHlang1 w1' c eq_refl m ii (fun o => exists w v, sentence E p w v /\ starts E (f v) K o) (u2 ++ rest) rem) as (y & My & Gy); eauto using ev_bind_l.
      { exists (w1' ++ x :: c), v. split; auto. eapply starts_hd; eauto. }
      { apply (NV_sub _ _ _ _ [] w1' Hn). intros t. apply vb_bind_l. apply (proj1 (proj2 (proj1 (ev_here E _ _ _ Hfit)))). }
      assert (Hs' : skipn ii s = (w1' ++ gap ++ c) ++ (u2 ++ rest)) by (rewrite Hs, Ht', <- !app_assoc; reflexivity).
      destruct (skipn_next _ _ _ _ Hi Hs') as [Hs2 Hi2]. rewrite !app_length, !Nat.add_assoc in Hs2, Hi2.
      pose proof Gy as (G1 & G2 & G3 & G4).
      assert (R : peg B (f v) m (y_pos y) (PSucc v' (y_pos y + List.length u2))).
      { rewrite G3. eapply rd; eauto using ev_bind_r. }
      eexists. split; [eapply md_bind_1; [exact My|rewrite G2; exact R]|].
      eapply (good_read _ _ _ (fun _ w => w)) in Gy. rewrite app_length, Nat.add_assoc, <- G3. exact Gy.
    + rewrite <- app_assoc in Hs. destruct (skipn_next _ _ _ _ Hi Hs) as [Hs2 Hi2].
      assert (R : peg A p m ii (PSucc v (ii + List.length u1))).
      { destruct c as [|t c].
        - eapply stop; eauto using ev_bind_l. cbn [app]. apply NV_noticed. rewrite app_nil_r in Hn. apply (NV_sub _ _ _ _ [] u1 Hn). intros t.
          apply vb_bind_l. apply (proj1 (proj2 (proj1 (ev_here E _ _ _ Hfit)))).
        - eapply rd; [eapply ev_bind_l; eauto|auto|exact L1|exact Hs| |exact H]. exists u1, v. split; auto. left. exists (c ++ x :: w2'), v'. exact H0. }
      destruct (IHlang2 c w2' eq_refl m (ii + List.length u1) K rest (if Nat.ltb ii (ii + List.length u1) then Some ins else rem)) as (y & My & Gy); eauto using ev_bind_r.
      { apply (NV_sub _ _ _ _ u1 c Hn). intros t. apply vb_bind_r. auto. }
      { intros ->. destruct u1 as [|z u1]; cbn [List.length].
        - rewrite Nat.add_0_r, Nat.ltb_irrefl. apply Hr. reflexivity.
        - replace (Nat.ltb ii (ii + S (List.length u1))) with true by (symmetry; apply Nat.ltb_lt; lia). eauto. }
      exists y. split; [eapply md_bind_2; eauto|]. rewrite app_length, Nat.add_assoc. exact Gy.
  - (* seq *) symmetry in HW. apply map_inl_app in HW as (u1 & u2 & HW & -> & ->). destruct HL as (L1 & L2).
    apply split_at in HW as [(c & -> & ->)|(c & -> & ->)].
    + assert (Ht' : tail = gap ++ c ++ (u2 ++ rest)) by (rewrite Ht, <- app_assoc; reflexivity).
      destruct (IHlang1 w1' c eq_refl m ii (starts E q K) (u2 ++ rest) rem) as (y & My & Gy); eauto using ev_seq_l.
      { eapply starts_hd; eauto. }
      { apply (NV_sub _ _ _ _ [] w1' Hn). intros t. apply vb_seq_l. apply (proj1 (proj2 (proj1 (ev_here E _ _ _ Hfit)))). }
      assert (Hs' : skipn ii s = (w1' ++ gap ++ c) ++ (u2 ++ rest)) by (rewrite Hs, Ht', <- !app_assoc; reflexivity).
      destruct (skipn_next _ _ _ _ Hi Hs') as [Hs2 Hi2]. rewrite !app_length, !Nat.add_assoc in Hs2, Hi2.
      pose proof Gy as (G1 & G2 & G3 & G4).
      assert (R : peg B q m (y_pos y) (PSucc v' (y_pos y + List.length u2))).
      { rewrite G3. eapply rd; eauto using ev_seq_r. }
      eexists. split; [eapply md_seq_1; [exact My|exact R]|].
      eapply (good_read _ _ _ merge) in Gy. rewrite app_length, Nat.add_assoc, <- G3. exact Gy.
    + rewrite <- app_assoc in Hs. destruct (skipn_next _ _ _ _ Hi Hs) as [Hs2 Hi2].
      assert (R : peg A p m ii (PSucc v (ii + List.length u1))).
      { destruct c as [|t c].
        - eapply stop; eauto using ev_seq_l. cbn [app]. apply NV_noticed. rewrite app_nil_r in Hn. apply (NV_sub _ _ _ _ [] u1 Hn). intros t.
          apply vb_seq_l. apply (proj1 (proj2 (proj1 (ev_here E _ _ _ Hfit)))).
        - eapply rd; [eapply ev_seq_l; eauto|auto|exact L1|exact Hs| |exact H]. left. exists (c ++ x :: w2'), v'. exact H0. }
      destruct (IHlang2 c w2' eq_refl m (ii + List.length u1) K rest (if Nat.ltb ii (ii + List.length u1) then Some ins else rem)) as (y & My & Gy); eauto using ev_seq_r.
      { apply (NV_sub _ _ _ _ u1 c Hn). intros t. eapply vb_seq_r. exact H. }
      { intros ->. destruct u1 as [|z u1]; cbn [List.length].
        - rewrite Nat.add_0_r, Nat.ltb_irrefl. apply Hr. reflexivity.
        - replace (Nat.ltb ii (ii + S (List.length u1))) with true by (symmetry; apply Nat.ltb_lt; lia). eauto. }
      exists (y_with y (merge v (y_val y))). split; [eapply md_seq_2; eauto|]. rewrite app_length, Nat.add_assoc.
      pose proof Gy as (_ & G2 & _). rewrite G2. eapply good_with. exact Gy.
  - (* maybe *) destruct HL as (L1 & L2 & L3).
    assert (N : w1' <> []).
    { intros ->. apply (Hap _ _ (ev_here E _ _ _ HP)). exists w2', v. subst w. exact H. }
    destruct (IHlang w1' w2' HW m ii K rest None) as (y & My & Gy); eauto using ev_maybe; [|congruence|].
    { apply (NV_sub _ _ _ _ [] w1' Hn). intros t. apply vb_maybe. }
    exists (y_with y (Some (y_val y))). split; [apply md_maybe; auto|]. pose proof Gy as (_ & G2 & _). rewrite G2. eapply good_with. exact Gy.
  - (* many *) symmetry in HW. apply map_inl_app in HW as (u1 & u2 & HW & -> & ->). pose proof HL as (L1 & L2 & L3).
    assert (FM : forall t w z, sentence E (GMany p) (t :: w) z -> first E p t).
    { intros t w z Q. apply sent_inv in Q as [[Q _]|(a & b & y & z' & Q & _ & Q' & _)]; [discriminate|].
      destruct a as [|t' a]; [destruct L2; exists y; exact Q'|]. injection Q as <- _. exists a, y. exact Q'. }
    assert (A1 : ~ first E p x) by apply (Hap _ _ (ev_here E _ _ _ HP)).
    apply split_at in HW as [(c & -> & ->)|(c & -> & ->)].
    + assert (N : w1' <> []) by (intros ->; apply A1; exists c, v; exact H).
      assert (Ht' : tail = gap ++ c ++ (u2 ++ rest)) by (rewrite Ht, <- app_assoc; reflexivity).
      destruct (IHlang1 w1' c eq_refl m ii (fun o => first_is E p o \/ K o) (u2 ++ rest) None) as (y & My & Gy); eauto using ev_many; [| |congruence|].
      { destruct u2 as [|t u2]; [right; exact HK|left]. exact (FM _ _ _ H0). }
      { apply (NV_sub _ _ _ _ [] w1' Hn). intros t. apply vb_many_l. }
      assert (Hs' : skipn ii s = (w1' ++ gap ++ c) ++ (u2 ++ rest)) by (rewrite Hs, Ht', <- !app_assoc; reflexivity).
      destruct (skipn_next _ _ _ _ Hi Hs') as [Hs2 Hi2]. rewrite !app_length, !Nat.add_assoc in Hs2, Hi2.
      pose proof Gy as (G1 & G2 & G3 & G4).
      assert (R : peg _ (GMany p) m (y_pos y) (PSucc l (y_pos y + List.length u2))).
      { rewrite G3. eapply rd; eauto. }
      eexists. split; [eapply md_many_1; [exact My|exact R]|].
      eapply (good_read _ _ _ cons) in Gy. rewrite app_length, Nat.add_assoc, <- G3. exact Gy.
    + rewrite <- app_assoc in Hs. destruct (skipn_next _ _ _ _ Hi Hs) as [Hs2 Hi2].
      destruct c as [|t c]; [exfalso; exact (A1 (FM _ _ _ H0))|].
      assert (R : peg A p m ii (PSucc v (ii + List.length u1))).
      { eapply rd; [eapply ev_many; eauto|auto|exact L1|exact Hs| |exact H]. left. exact (FM _ _ _ H0). }
      destruct (IHlang2 (t :: c) w2' eq_refl m (ii + List.length u1) K rest None) as (y & My & Gy); eauto; [|discriminate|].
      { apply (NV_sub _ _ _ _ u1 (t :: c) Hn). intros t'. eapply vb_many_r. exact H. }
      exists (y_with y (v :: y_val y)). split; [eapply md_many_more; eauto|]. rewrite app_length, Nat.add_assoc.
      pose proof Gy as (_ & G2 & _). rewrite G2. eapply good_with. exact Gy.
  - (* attempt *) exfalso. apply (ev_here E _ _ _ Hfit).
  - (* label *) destruct (IHlang w1' w2' HW m ii K rest rem) as (y & My & Gy); eauto using ev_label.
    { apply (NV_sub _ _ _ _ [] w1' Hn). intros t (w' & u & L). exists w', u. apply la_label. exact L. }
    exists y. split; auto. apply md_label. auto.
  - destruct (IHlang w1' w2' HW m ii K rest rem) as (y & My & Gy); eauto using ev_recover.
    { apply (NV_sub _ _ _ _ [] w1' Hn). intros t (w' & u & L). exists w', u. apply la_recover. exact L. }
    eexists. split; [apply md_recover; eauto|]. destruct Gy as (G1 & G2 & G3 & G4). split; auto.
  - destruct (IHlang w1' w2' HW m ii K rest rem) as (y & My & Gy); eauto using ev_with.
    { apply (NV_sub _ _ _ _ [] w1' Hn). intros t (w' & u & L). exists w', u. apply la_with. exact L. }
    exists y. split; auto. apply md_with. auto.
  - destruct (IHlang w1' w2' HW m ii K rest rem) as (y & My & Gy); eauto using ev_withfn.
    { apply (NV_sub _ _ _ _ [] w1' Hn). intros t (w' & u & L). exists w', u. apply la_withfn. exact L. }
    exists y. split; auto. apply md_withfn. auto.
  - destruct HL.
  - destruct HL.
  - destruct HL.
  - (* delay *) destruct (IHlang w1' w2' HW m ii (F d) rest rem) as (y & My & Gy); eauto using ev_delay.
    { apply (NV_sub _ _ _ _ [] w1' Hn). intros t (w' & u & L). exists w', u. apply la_delay. exact L. }
    exists y. split; auto. apply md_delay. auto.
Qed.
End Gap.
End Miss.
