(** Proofs for C79: a way of mending an input that ends too early *)
From Verif Require Import Fuel ApiSpec ApiProofs Locations PegSpec PropsPeg DiagSpec DiagProofs PropsTerm PropsTotal YamlishErr LL PropsLL Mend.
From Verif Require Export CloseSpec MendSpec.
From Coq Require Import Lia.
Import ListNotations.

Section Close.
Context {T : Type} {V : nat -> Type}.
Variable E : env T V.
Notation gram := (gram T V).
Variables (s : list T) (get : loc -> list T -> nat -> loc) (at_ : nat -> loc).
Hypothesis HE : wf_env E.
Hypothesis Hco : cohere get s at_.
Notation lay := (exactpos s at_).
Hypothesis HG : forall d, gok lay (E d).
Variable F : nat -> option T -> Prop.
Hypothesis HF : forall d, ll1 E F (E d) (F d).
Notation len := (List.length s).
Notation peg := (peg E s (fun i => loc_col (at_ i))).
Definition fit B (q : gram B) : Prop :=
  (wf q /\ completable_node E B q /\ quiet_node E B q) /\ (acc_node E B q /\ gok lay q) /\ to_end_node E B q.
Lemma occurs_gok B (q : gram B) A (g : gram A) : occurs E q A g -> gok lay g -> gok lay q.
Proof using HG. intros Ho. induction Ho; intros Hg; auto; try (apply IHHo; apply Hg). Qed.
Notation fits := (everywhere E fit).
Lemma fit_all A (p : gram A) : fits p -> wf p /\ everywhere E (completable_node E) p /\ gok lay p.
Proof.
  intros H. split; [apply (ev_here E _ _ _ H)|]. split; [intros B q Ho; apply (H B q Ho)|]. apply (ev_here E _ _ _ H).
Qed.
Lemma outcome A (p : gram A) m i : fits p -> i <= len -> exists o, diag E s at_ A p m i o /\ forall e, o <> DExn e.
Proof using HE HG Hco.
  intros H Hi. destruct (fit_all _ _ H) as (H1 & H2 & H3).
  assert (Q : everywhere E (quiet_node E) p) by (intros B q Ho; apply (H B q Ho)).
  assert (G : guarded E p) by (apply guarded_everywhere; intros B q Ho; apply (H B q Ho)).
  set (c := Ctx (T:=T) m (at_ i) get).
  assert (Hc : pos_Cok (T:=T) get at_ i c) by (split; [reflexivity|right; exists i; auto]).
  destruct (fast_term E HE s (List.length s) i ltac:(lia) Hi A p (adm_of E HE _ p H1 (quiet_halting E _ _ Q) G) c) as [n Hn].
  destruct (fast E n p s i c) as [r|e|] eqn:Hf; [| |congruence].
  - exists (match r with SOk o => DSucc (ok_val o) (ok_pos o) (ok_exp o) | SErr e => DFail (er_con e) (er_loc e) (er_exp e) end).
    split; [|destruct r; discriminate]. apply (diag_sound E s get at_ lay Hco (fun x => x) HG n A p i c _ H3 Hi Hc).
    rewrite Hf. destruct r; reflexivity.
  - exfalso. apply (fast_silent E HE s n A p (calm_of E HE _ p H1 Q) i c Hi e Hf).
Qed.
Lemma rd A (p : gram A) m i K w rest v : fits p -> i <= len -> ll1 E F p K -> skipn i s = w ++ rest ->
  K (hd_error rest) -> sentence E p w v -> peg A p m i (PSucc v (i + List.length w)).
Proof using HE HG Hco HF.
  intros H Hi HL Hs HK Hv. destruct (outcome _ p m i H Hi) as (o & Ho & Hx). destruct (fit_all _ _ H) as (H1 & H2 & H3).
  destruct (ll1_reads E HE F HF s at_ A p m i o Ho H1 Hi H2 K w rest v HL Hs HK Hv) as [[X ->]|[e ->]]; [|destruct (Hx e eq_refl)].
  apply (diag_peg _ _ _ _ _ _ _ _ _ _ Ho).
Qed.
Lemma nope A (p : gram A) m i : fits p -> i <= len -> ~ nullable E p -> ~ first_is E p (nth_error s i) -> peg A p m i (PFail false).
Proof using HE HG Hco.
  intros H Hi Hn Hf. destruct (outcome _ p m i H Hi) as (o & Ho & Hx). destruct (fit_all _ _ H) as (H1 & H2 & H3).
  destruct (predict E HE s at_ A p m i o Ho H1 Hi H2 Hn Hf) as [(l & X & ->)|[e ->]]; [|destruct (Hx e eq_refl)].
  apply (diag_peg _ _ _ _ _ _ _ _ _ _ Ho).
Qed.
Lemma at_end i : skipn i s = [] -> forall A (p : gram A), ~ first_is E p (nth_error s i).
Proof. intros H A p. rewrite <- hd_skipn, H. exact (fun x => x). Qed.

(** what stands at the end of the input is read to the end, whatever should follow *)
Lemma stop A (p : gram A) W v : lang E A p W v -> forall w, W = map inl w -> forall m ii K, fits p -> ii <= len ->
  ll1 E F p K -> skipn ii s = w -> peg A p m ii (PSucc v (ii + List.length w)).
Proof using HE HG Hco HF.
  induction 1; intros w0 HW m ii K Hfit Hi HL Hs; cbn [ll1] in HL;
    try (symmetry in HW; apply map_inl_nil in HW; subst w0; cbn [List.length app] in *; rewrite Nat.add_0_r).
  - constructor.
  - constructor; auto.
  - exfalso. apply (ev_here E _ _ _ Hfit).
  - symmetry in HW. apply map_inl_one in HW. rewrite HW in *. constructor; auto. rewrite <- hd_skipn, Hs. reflexivity.
  - symmetry in HW. apply map_inl_one in HW. rewrite HW in *. constructor; auto. rewrite <- hd_skipn, Hs. reflexivity.
  - apply map_inl_inj in HW. rewrite <- HW in *. rewrite (Forall2_len _ _ _ H). constructor. unfold stands_at. rewrite Hs, <- (app_nil_r w).
    apply prefix_of_forall2. auto.
  - (* regexp *) pose proof (proj2 (proj2 (ev_here E _ _ _ Hfit))) as R. cbn in R.
    pose proof (la_re E A re s0 i e v H) as L. rewrite HW in L.
    specialize (R (firstn ii s) w0 v L). rewrite <- Hs, firstn_skipn, Hs, firstn_length, Nat.min_l in R by exact Hi.
    apply pg_re. exact R.
  - (* fmap *) econstructor; [|eassumption]. eapply IHlang; eauto using ev_fmap.
  - (* alt *) destruct HL as (L1 & L2 & L3 & L4). apply pg_alt_l. eapply IHlang; eauto using ev_alt_l.
  - destruct HL as (L1 & L2 & L3 & L4). apply pg_alt_r.
    + apply nope; eauto using ev_alt_l. destruct w0 as [|t w0].
      * apply at_end. auto.
      * rewrite <- hd_skipn, Hs. cbn. intros Q. apply (L4 (Some t) Q). left. exists w0, v. subst w. exact H.
    + eapply IHlang; eauto using ev_alt_r.
  - (* bind *) symmetry in HW. apply map_inl_app in HW as (u1 & u2 & Q & -> & ->). destruct HL as (L1 & L2).
    rewrite Q in Hs. destruct (skipn_next _ _ _ _ Hi Hs) as [Hs' Hi'].
    assert (P2 : peg B (f v) m (ii + List.length u1) (PSucc v' (ii + List.length u1 + List.length u2))).
    { eapply IHlang2; eauto using ev_bind_r. }
    assert (P1 : peg A p m ii (PSucc v (ii + List.length u1))).
    { destruct u2 as [|t u2].
      - eapply IHlang1; eauto using ev_bind_l. rewrite Hs. apply app_nil_r.
      - eapply rd; [eapply ev_bind_l; eauto|auto|exact L1|exact Hs| |exact H]. exists u1, v. split; auto. left. exists u2, v'. exact H0. }
    subst w0. rewrite app_length, Nat.add_assoc. exact (pg_bind E s _ A B p f m ii v _ _ P1 P2).
  - (* seq *) symmetry in HW. apply map_inl_app in HW as (u1 & u2 & Q & -> & ->). destruct HL as (L1 & L2).
    rewrite Q in Hs. destruct (skipn_next _ _ _ _ Hi Hs) as [Hs' Hi'].
    assert (P2 : peg B q m (ii + List.length u1) (PSucc v' (ii + List.length u1 + List.length u2))).
    { eapply IHlang2; eauto using ev_seq_r. }
    assert (P1 : peg A p m ii (PSucc v (ii + List.length u1))).
    { destruct u2 as [|t u2].
      - eapply IHlang1; eauto using ev_seq_l. rewrite Hs. apply app_nil_r.
      - eapply rd; [eapply ev_seq_l; eauto|auto|exact L1|exact Hs| |exact H]. left. exists u2, v'. exact H0. }
    subst w0. rewrite app_length, Nat.add_assoc. exact (pg_seq E s _ A B C p q merge m ii v _ _ P1 P2).
  - (* maybe *) destruct HL as (L1 & L2 & L3). apply pg_maybe_none. apply nope; eauto using ev_maybe. apply at_end. auto.
  - destruct HL as (L1 & L2 & L3). apply pg_maybe. eapply IHlang; eauto using ev_maybe.
  - (* many *) destruct HL as (L1 & L2 & L3). eapply pg_many_stop. apply nope; eauto using ev_many. apply at_end. auto.
  - symmetry in HW. apply map_inl_app in HW as (u1 & u2 & Q & -> & ->). pose proof HL as (L1 & L2 & L3).
    rewrite Q in Hs. destruct (skipn_next _ _ _ _ Hi Hs) as [Hs' Hi'].
    assert (N1 : u1 <> []) by (intros ->; apply L2; exists v; exact H).
    assert (P2 : peg _ (GMany p) m (ii + List.length u1) (PSucc l (ii + List.length u1 + List.length u2))).
    { eapply IHlang2; eauto. }
    assert (P1 : peg A p m ii (PSucc v (ii + List.length u1))).
    { destruct u2 as [|t u2].
      - eapply IHlang1; eauto using ev_many. rewrite Hs. apply app_nil_r.
      - eapply rd; [eapply ev_many; eauto|auto|exact L1|exact Hs| |exact H]. left. cbn.
        apply (sent_inv E _ _ (t :: u2) l) in H0. destruct H0 as [[Q' _]|(a & b & y & z & Q' & _ & Q2 & _)]; [discriminate|].
        destruct a as [|t' a]; [destruct L2; exists y; exact Q2|]. injection Q' as <- _. exists a, y. exact Q2. }
    subst w0. rewrite app_length, Nat.add_assoc. apply (pg_many_more E s _ A p m ii v (ii + List.length u1) l); [|exact P1|exact P2].
    destruct u1; [congruence|cbn; lia].
  - (* attempt *) exfalso. apply (ev_here E _ _ _ Hfit).
  - (* label *) apply pg_label. eapply IHlang; eauto using ev_label.
  - apply pg_recover. eapply IHlang; eauto using ev_recover.
  - apply pg_with. eapply IHlang; eauto using ev_with.
  - destruct w0; discriminate.
  - apply pg_withfn. eapply IHlang; eauto using ev_withfn.
  - destruct w0; discriminate.
  - destruct HL.
  - destruct HL.
  - destruct HL.
  - (* delay *) apply pg_delay. eapply IHlang; eauto using ev_delay.
Qed.

(** ** The missing tokens are inserted one after the other *)
Variable ins : Z.
Definition good {A} (y : mended A) (ws : list T) (left : Z) (v : A) (e : nat) : Prop :=
  y_cost y = List.length ws /\ y_val y = v /\ y_pos y = e /\ y_left y = (left - Z.of_nat (List.length ws))%Z.
Lemma split_two {X} (a b u1 u2 : list X) : a ++ b = u1 ++ u2 ->
  (exists c, c <> [] /\ u1 = a ++ c /\ b = c ++ u2) \/ (exists c, a = u1 ++ c /\ u2 = c ++ b).
Proof.
  revert u1. induction a as [|z a IH]; intros u1 H.
  - destruct u1 as [|z u1]; [right; exists []; auto|]. left. exists (z :: u1). split; [discriminate|auto].
  - destruct u1 as [|z' u1]; [right; exists (z :: a); auto|]. injection H as <- H.
    destruct (IH u1 H) as [(c & N & -> & ->)|(c & -> & ->)]; [left|right]; exists c; auto.
Qed.
Lemma one_split {X} (t : X) a b : [t] = a ++ b -> b <> [] -> a = [] /\ b = [t].
Proof. destruct a as [|z a]; cbn; intros H N; [auto|]. injection H as _ H. symmetry in H. apply app_eq_nil in H as [_ H]. congruence. Qed.
Lemma enough_more z k : enough z (S k) -> z <> 0%Z.
Proof. intros [H|H]; lia. Qed.
Lemma enough_app (a b : list T) z : enough z (List.length (a ++ b)) -> enough z (List.length a) /\ enough (z - Z.of_nat (List.length a)) (List.length b).
Proof. unfold enough. rewrite app_length. intros H. lia. Qed.
Notation closings g ws := (Forall (fun x => everywhere E (closing_node E x) g) ws).
Lemma cl_here A (g : gram A) x ws : closings g (x :: ws) -> closing_node E x A g.
Proof. intros H. inversion H. apply (ev_here E _ _ _ H2). Qed.
Lemma cl_sub A B (g : gram A) (q : gram B) ws :
  (forall x, everywhere E (closing_node E x) g -> everywhere E (closing_node E x) q) -> closings g ws -> closings q ws.
Proof. intros H. apply Forall_impl. exact H. Qed.
Lemma not_first A (g : gram A) (p : gram A) ws v x ws' : ws = x :: ws' -> sentence E p ws v -> ~ first E p x -> False.
Proof. intros -> H K. apply K. exists ws', v. exact H. Qed.

Lemma leaf_sym teq z lb m ii left x : skipn ii s = [] -> teq x z = true -> closing_node E x T (GSym teq z lb) -> left <> 0%Z ->
  exists y, mend E s at_ T (GSym teq z lb) m ii ins (Some left) y /\ good y [x] left x ii.
Proof.
  intros Hs Ht (_ & Hi & _) Hl. cbn in Hi. rewrite (Hi Ht). eexists. split; [apply md_sym_insert; [|exact Hl]|repeat split].
  intros t Hn. rewrite <- hd_skipn, Hs in Hn. discriminate.
Qed.

Theorem close A (g : gram A) W v : lang E A g W v -> forall w1 ws, W = map inl (w1 ++ ws) -> ws <> [] ->
  forall m ii K rem left, fits g -> closings g ws -> ii <= len -> ll1 E F g K ->
  skipn ii s = w1 -> (w1 = [] -> rem = Some left) -> (w1 <> [] -> left = ins) ->
  enough left (List.length ws) ->
  exists y, mend E s at_ A g m ii ins rem y /\ good y ws left v (ii + List.length w1).
Proof using All.
  induction 1; intros w1' ws HW Hne m ii K rem left Hfit HC Hi HL Hs Hr Hr' Hen; cbn [ll1] in HL;
    try (destruct w1'; [destruct ws; [congruence|]|]; discriminate).
  - (* satisfy *) symmetry in HW. apply map_inl_one in HW. symmetry in HW. apply one_split in HW as [-> ->]; [|exact Hne].
    exfalso. apply (proj1 (proj2 (cl_here _ _ _ _ HC))). exact H.
  - (* sym *) symmetry in HW. apply map_inl_one in HW. symmetry in HW. apply one_split in HW as [-> ->]; [|exact Hne]. rewrite (Hr eq_refl).
    cbn [List.length]. rewrite Nat.add_0_r. apply leaf_sym; auto; [apply (cl_here _ _ _ _ HC)|exact (enough_more _ _ Hen)].
  - (* literal *) apply map_inl_inj in HW.
    assert (L : List.length x = 1) by apply (ev_here E _ _ _ Hfit).
    destruct x as [|z [|? ?]]; try discriminate L. inversion H as [|t ? w0 ? H0 H1 Q1 Q2]. inversion H1. subst w0.
    rewrite <- Q1 in HW. apply one_split in HW as [-> ->]; [|exact Hne]. rewrite (Hr eq_refl). cbn [List.length]. rewrite Nat.add_0_r.
    pose proof (proj1 (proj2 (cl_here _ _ _ _ HC))) as Hz. cbn in Hz. specialize (Hz z eq_refl H0). subst z.
    eexists. split; [apply md_lit_insert; [|exact (enough_more _ _ Hen)]|repeat split].
    unfold lit_miss, stands_at. rewrite Hs. reflexivity.
  - (* regexp *) destruct ws as [|x ws]; [congruence|]. exfalso. pose proof (la_re E A re s0 i e v H) as L. rewrite HW in L.
    apply (proj2 (proj2 (cl_here _ _ _ _ HC)) _ _ L). apply in_or_app. right. left. reflexivity.
  - (* fmap *) destruct (IHlang w1' ws HW Hne m ii K rem left) as (y & My & G1 & G2 & G3 & G4); eauto using ev_fmap.
    { eapply cl_sub; [|exact HC]. intros x Hx. eapply ev_fmap; exact Hx. }
    exists (y_with y v'). split; [|repeat split; auto]. apply md_fmap; auto. rewrite G2. auto.
  - (* alt *) destruct HL as (L1 & L2 & L3 & L4).
    assert (N : w1' <> []).
    { intros ->. destruct ws as [|x ws]; [congruence|]. apply (proj1 (proj1 (cl_here _ _ _ _ HC))). exists ws, v. subst w. exact H. }
    destruct (IHlang w1' ws HW Hne m ii K None left) as (y & My & Gy); eauto using ev_alt_l; [|congruence|].
    { eapply cl_sub; [|exact HC]. intros x Hx. eapply ev_alt_l; exact Hx. }
    exists y. split; auto. apply md_alt_l. auto.
  - destruct HL as (L1 & L2 & L3 & L4).
    assert (N : w1' <> []).
    { intros ->. destruct ws as [|x ws]; [congruence|]. apply (proj2 (proj1 (cl_here _ _ _ _ HC))). exists ws, v. subst w. exact H. }
    destruct (IHlang w1' ws HW Hne m ii K None left) as (y & My & Gy); eauto using ev_alt_r; [|congruence|].
    { eapply cl_sub; [|exact HC]. intros x Hx. eapply ev_alt_r; exact Hx. }
    exists y. split; auto. apply md_alt_r; auto. apply nope; eauto using ev_alt_l.
    destruct w1' as [|t w1']; [congruence|]. rewrite <- hd_skipn, Hs. cbn. intros Q. apply (L4 (Some t) Q). left.
    exists (w1' ++ ws), v. subst w. exact H.
  - (* bind *) symmetry in HW. apply map_inl_app in HW as (u1 & u2 & HW & -> & ->). destruct HL as (L1 & L2).
    apply split_two in HW as [(c & N & -> & ->)|(c & -> & ->)].
    + apply enough_app in Hen as [He1 He2]. apply Forall_app in HC as [HC1 HC2].
      destruct (IHlang1 w1' c eq_refl N m ii (fun o => exists w v, sentence E p w v /\ starts E (f v) K o) rem left) as (y & My & G1 & G2 & G3 & G4); eauto using ev_bind_l.
      { eapply cl_sub; [|exact HC1]. intros x Hx. eapply ev_bind_l; exact Hx. }
      pose proof (skipn_next s ii w1' [] Hi ltac:(rewrite app_nil_r; exact Hs)) as [Hs2 Hi2]. rewrite <- G3 in Hs2, Hi2.
      destruct u2 as [|t u2].
      * assert (R : peg B (f v) m (y_pos y) (PSucc v' (y_pos y + List.length (@nil T)))).
        { eapply stop; eauto using ev_bind_r. }
        rewrite app_nil_r. eexists. split; [eapply md_bind_1; [exact My|rewrite G2; exact R]|].
        cbn [List.length]. rewrite Nat.add_0_r. unfold y_then_read, good. cbn. rewrite Nat.eqb_refl. auto.
      * destruct (IHlang2 [] (t :: u2) eq_refl ltac:(discriminate) m (y_pos y) K (Some (y_left y)) (y_left y)) as (y' & My' & K1 & K2 & K3 & K4); eauto using ev_bind_r; try congruence.
        { eapply cl_sub; [|exact HC2]. intros x Hx. eapply ev_bind_r; exact Hx. }
        eexists. split; [eapply md_bind_12; [exact My|rewrite G2; exact My']|].
        unfold good, y_then_mend. cbn [y_cost y_val y_pos y_left]. rewrite G1, K1, K2, K3, K4, app_length, G3. cbn [List.length]. repeat split; lia.
    + destruct (skipn_next _ _ _ _ Hi Hs) as [Hs2 Hi2].
      assert (R : peg A p m ii (PSucc v (ii + List.length u1))).
      { destruct c as [|t c].
        - rewrite app_nil_r in Hs. eapply stop; eauto using ev_bind_l.
        - eapply rd; [eapply ev_bind_l; eauto|auto|exact L1|exact Hs| |exact H]. exists u1, v. split; auto. left. exists (c ++ ws), v'. exact H0. }
      destruct (IHlang2 c ws eq_refl Hne m (ii + List.length u1) K (if Nat.ltb ii (ii + List.length u1) then Some ins else rem) left) as (y & My & Gy); eauto using ev_bind_r.
      { eapply cl_sub; [|exact HC]. intros x Hx. eapply ev_bind_r; exact Hx. }
      { intros ->. destruct u1 as [|z u1]; cbn [List.length].
        - rewrite Nat.add_0_r, Nat.ltb_irrefl. apply Hr. reflexivity.
        - replace (Nat.ltb ii (ii + S (List.length u1))) with true by (symmetry; apply Nat.ltb_lt; lia). rewrite Hr' by discriminate. reflexivity. }
      { intros N. apply Hr'. destruct u1; [exact N|discriminate]. }
      exists y. split; [eapply md_bind_2; eauto|]. rewrite app_length, Nat.add_assoc. exact Gy.
  - (* seq *) symmetry in HW. apply map_inl_app in HW as (u1 & u2 & HW & -> & ->). destruct HL as (L1 & L2).
    apply split_two in HW as [(c & N & -> & ->)|(c & -> & ->)].
    + apply enough_app in Hen as [He1 He2]. apply Forall_app in HC as [HC1 HC2].
      destruct (IHlang1 w1' c eq_refl N m ii (starts E q K) rem left) as (y & My & G1 & G2 & G3 & G4); eauto using ev_seq_l.
      { eapply cl_sub; [|exact HC1]. intros x Hx. eapply ev_seq_l; exact Hx. }
      pose proof (skipn_next s ii w1' [] Hi ltac:(rewrite app_nil_r; exact Hs)) as [Hs2 Hi2]. rewrite <- G3 in Hs2, Hi2.
      destruct u2 as [|t u2].
      * assert (R : peg B q m (y_pos y) (PSucc v' (y_pos y + List.length (@nil T)))).
        { eapply stop; eauto using ev_seq_r. }
        rewrite app_nil_r. eexists. split; [eapply md_seq_1; [exact My|exact R]|].
        cbn [List.length]. rewrite Nat.add_0_r. unfold y_then_read, good. cbn. rewrite Nat.eqb_refl, G2. auto.
      * destruct (IHlang2 [] (t :: u2) eq_refl ltac:(discriminate) m (y_pos y) K (Some (y_left y)) (y_left y)) as (y' & My' & K1 & K2 & K3 & K4); eauto using ev_seq_r; try congruence.
        { eapply cl_sub; [|exact HC2]. intros x Hx. eapply ev_seq_r; exact Hx. }
        eexists. split; [eapply md_seq_12; [exact My|exact My']|].
        unfold good, y_then_mend. cbn [y_cost y_val y_pos y_left]. rewrite G1, G2, K1, K2, K3, K4, app_length, G3. cbn [List.length]. repeat split; lia.
    + destruct (skipn_next _ _ _ _ Hi Hs) as [Hs2 Hi2].
      assert (R : peg A p m ii (PSucc v (ii + List.length u1))).
      { destruct c as [|t c].
        - rewrite app_nil_r in Hs. eapply stop; eauto using ev_seq_l.
        - eapply rd; [eapply ev_seq_l; eauto|auto|exact L1|exact Hs| |exact H]. left. exists (c ++ ws), v'. exact H0. }
      destruct (IHlang2 c ws eq_refl Hne m (ii + List.length u1) K (if Nat.ltb ii (ii + List.length u1) then Some ins else rem) left) as (y & My & Gy); eauto using ev_seq_r.
      { eapply cl_sub; [|exact HC]. intros x Hx. eapply ev_seq_r; exact Hx. }
      { intros ->. destruct u1 as [|z u1]; cbn [List.length].
        - rewrite Nat.add_0_r, Nat.ltb_irrefl. apply Hr. reflexivity.
        - replace (Nat.ltb ii (ii + S (List.length u1))) with true by (symmetry; apply Nat.ltb_lt; lia). rewrite Hr' by discriminate. reflexivity. }
      { intros N. apply Hr'. destruct u1; [exact N|discriminate]. }
      exists (y_with y (merge v (y_val y))). split; [eapply md_seq_2; eauto|]. rewrite app_length, Nat.add_assoc.
      destruct Gy as (G1 & G2 & G3 & G4). rewrite G2. repeat split; auto.
  - (* maybe *) destruct HL as (L1 & L2 & L3).
    assert (N : w1' <> []).
    { intros ->. destruct ws as [|x ws]; [congruence|]. apply (proj1 (cl_here _ _ _ _ HC)). exists ws, v. subst w. exact H. }
    destruct (IHlang w1' ws HW Hne m ii K None left) as (y & My & G1 & G2 & G3 & G4); eauto using ev_maybe; [|congruence|].
    { eapply cl_sub; [|exact HC]. intros x Hx. eapply ev_maybe; exact Hx. }
    exists (y_with y (Some (y_val y))). split; [apply md_maybe; auto|]. rewrite G2. repeat split; auto.
  - (* many *) symmetry in HW. apply map_inl_app in HW as (u1 & u2 & HW & -> & ->). pose proof HL as (L1 & L2 & L3).
    assert (FM : forall t w z, sentence E (GMany p) (t :: w) z -> first E p t).
    { intros t w z Q. apply sent_inv in Q as [[Q _]|(a & b & y & z' & Q & _ & Q' & _)]; [discriminate|].
      destruct a as [|t' a]; [destruct L2; exists y; exact Q'|]. injection Q as <- _. exists a, y. exact Q'. }
    assert (A1 : forall x, In x ws -> ~ first E p x).
    { intros x Hx. rewrite Forall_forall in HC. apply (ev_here E _ _ _ (HC x Hx)). }
    apply split_two in HW as [(c & N & -> & ->)|(c & -> & ->)].
    + assert (u2 = []).
      { destruct u2 as [|t u2]; auto. exfalso. apply (A1 t); [apply in_or_app; right; left; reflexivity|]. exact (FM _ _ _ H0). }
      subst u2. rewrite app_nil_r in *.
      assert (Nw : w1' <> []).
      { intros ->. destruct c as [|x c]; [congruence|]. apply (A1 x (or_introl eq_refl)). exists c, v. exact H. }
      destruct (IHlang1 w1' c eq_refl N m ii (fun o => first_is E p o \/ K o) None left) as (y & My & G1 & G2 & G3 & G4); eauto using ev_many; [|congruence|].
      { eapply cl_sub; [|exact HC]. intros x Hx. eapply ev_many; exact Hx. }
      pose proof (skipn_next s ii w1' [] Hi ltac:(rewrite app_nil_r; exact Hs)) as [Hs2 Hi2]. rewrite <- G3 in Hs2, Hi2.
      assert (R : peg _ (GMany p) m (y_pos y) (PSucc l (y_pos y + List.length (@nil T)))).
      { eapply stop; eauto. }
      eexists. split; [eapply md_many_1; [exact My|exact R]|].
      cbn [List.length]. rewrite Nat.add_0_r. unfold y_then_read, good. cbn. rewrite Nat.eqb_refl, G2. auto.
    + destruct (skipn_next _ _ _ _ Hi Hs) as [Hs2 Hi2].
      destruct c as [|t c].
      { exfalso. destruct ws as [|x ws]; [congruence|]. apply (A1 x (or_introl eq_refl)). exact (FM _ _ _ H0). }
      assert (R : peg A p m ii (PSucc v (ii + List.length u1))).
      { eapply rd; [eapply ev_many; eauto|auto|exact L1|exact Hs| |exact H]. left. exact (FM _ _ _ H0). }
      destruct (IHlang2 (t :: c) ws eq_refl Hne m (ii + List.length u1) K None left) as (y & My & G1 & G2 & G3 & G4); eauto; try discriminate.
      { intros _. apply Hr'. destruct u1; discriminate. }
      exists (y_with y (v :: y_val y)). split; [eapply md_many_more; eauto|]. rewrite app_length, Nat.add_assoc.
      rewrite G2. repeat split; auto.
  - (* attempt *) exfalso. apply (ev_here E _ _ _ Hfit).
  - (* label *) destruct (IHlang w1' ws HW Hne m ii K rem left) as (y & My & Gy); eauto using ev_label.
    { eapply cl_sub; [|exact HC]. intros x0 Hx. eapply ev_label; exact Hx. }
    exists y. split; auto. apply md_label. auto.
  - destruct (IHlang w1' ws HW Hne m ii K rem left) as (y & My & G1 & G2 & G3 & G4); eauto using ev_recover.
    { eapply cl_sub; [|exact HC]. intros x0 Hx. eapply ev_recover; exact Hx. }
    eexists. split; [apply md_recover; eauto|]. repeat split; auto.
  - destruct (IHlang w1' ws HW Hne m ii K rem left) as (y & My & Gy); eauto using ev_with.
    { eapply cl_sub; [|exact HC]. intros x0 Hx. eapply ev_with; exact Hx. }
    exists y. split; auto. apply md_with. auto.
  - destruct (IHlang w1' ws HW Hne m ii K rem left) as (y & My & Gy); eauto using ev_withfn.
    { eapply cl_sub; [|exact HC]. intros x0 Hx. eapply ev_withfn; exact Hx. }
    exists y. split; auto. apply md_withfn. auto.
  - destruct HL.
  - destruct HL.
  - destruct HL.
  - (* delay *) destruct (IHlang w1' ws HW Hne m ii (F d) rem left) as (y & My & Gy); eauto using ev_delay.
    { eapply cl_sub; [|exact HC]. intros x0 Hx. eapply ev_delay; exact Hx. }
    exists y. split; auto. apply md_delay. auto.
Qed.
End Close.
