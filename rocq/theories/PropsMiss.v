(** Property C75: a forgotten token, and tokens that are too many (MissSpec.v). *)
From Verif Require Import Fuel ApiSpec ApiProofs Locations PegSpec PropsPeg DiagSpec DiagProofs PropsTerm PropsTotal PropsRec PropsRecovery
  FirstSpec First PropsFirst LL LangInv PropsLL Examples Mend PropsMend Miss.
Import ListNotations.

Section Leaves.
Context {T : Type} {V : nat -> Type}.
Variable E : env T V.
Notation gram := (gram T V).
Variables (s : list T) (at_ : nat -> loc).
Notation len := (List.length s).
Variable x : T.

Lemma leaf_missing tail ins A (q : gram A) m i left v : is_leaf q -> everywhere E (fit E s at_) q -> apart_node E x A q /\ insertable_node x A q ->
  sentence E q [x] v -> i <= len -> skipn i s = tail -> NV E (firstn 1 tail) q [] -> left <> 0%Z ->
  exists y, mend E s at_ A q m i ins (Some left) y /\
    good at_ 1 (fun o => exists l, o = Insert l) y i v (i + List.length (@nil T)).
Proof.
  intros L Hf [_ Hi] Hv Hle Hs Hn Hl. cbn [List.length]. rewrite Nat.add_0_r.
  pose proof (ev_here E _ _ _ Hf) as (_ & _ & H1 & _).
  destruct q as [| | | |test|teq zq lb|teq zq lb| | | | | | | | | | | | | | | | |]; cbn in L; try contradiction; cbn in Hi, H1; apply sent_inv in Hv; cbn in Hv.
  - destruct Hv as [Hv Ht]. injection Hv as <-. congruence.
  - destruct Hv as [Hv Ht]. injection Hv as <-. specialize (Hi Ht). subst zq.
    eexists. split; [apply md_sym_insert; [|exact Hl]|].
    + intros t Hnt. destruct (teq t x) eqn:Q; auto. exfalso. rewrite <- hd_skipn, Hs in Hnt. destruct tail as [|t' tail]; [discriminate|].
      injection Hnt as ->. apply (Hn t); [left; reflexivity|]. exists [], t. apply (la_sym E teq x lb t Q).
    + repeat split. cbn. eauto.
  - destruct Hv as [-> Hv]. destruct zq as [|z [|z' zq]]; cbn in H1; try discriminate.
    inversion Hv as [|a b la1 la2 Q _]; subst. specialize (Hi z eq_refl Q). subst z.
    eexists. split; [apply md_lit_insert; [|exact Hl]|].
    + unfold lit_miss, stands_at. destruct (skipn i s) as [|t tl] eqn:Hs; cbn; [reflexivity|].
      destruct (teq t x) eqn:Q'; auto. exfalso. apply (Hn t); [left; reflexivity|]. exists [], [x].
      apply (la_lit E teq [x] lb [t]). constructor; auto.
    + repeat split. cbn. eauto.
Qed.

Lemma leaf_skips zs after ins A (q : gram A) m i left v : zs <> [] -> is_leaf q -> everywhere E (fit E s at_) q ->
  sentence E q [x] v -> i <= len -> skipn i s = (zs ++ [x]) ++ after -> NV E zs q [] ->
  exists y, mend E s at_ A q m i ins (Some left) y /\
    good at_ (List.length zs) (fun o => o = Skip (List.length zs)) y i v (i + List.length (zs ++ [x])) /\ y_auto y = false.
Proof.
  intros Hz L Hf Hv Hle Hs Hn.
  pose proof (ev_here E _ _ _ Hf) as ((_ & _ & Hq) & _ & H1 & _).
  assert (NT : forall k, i <= k < i + List.length zs -> exists z, nth_error s k = Some z /\ In z zs).
  { intros k Hk. destruct (nth_error zs (k - i)) as [z|] eqn:Q; [|apply nth_error_None in Q; lia].
    exists z. split; [|apply nth_error_In in Q; exact Q].
    rewrite <- (firstn_skipn i s), nth_error_app2; rewrite firstn_length, Nat.min_l; auto; try lia.
    rewrite Hs, <- app_assoc, nth_error_app1; auto. lia. }
  assert (NX : nth_error s (i + List.length zs) = Some x).
  { rewrite <- (firstn_skipn i s), nth_error_app2; rewrite firstn_length, Nat.min_l; auto; try lia.
    rewrite Hs, <- app_assoc, nth_error_app2 by lia. replace (i + List.length zs - i - List.length zs) with 0 by lia. reflexivity. }
  assert (Lz : 0 < List.length zs) by (destruct zs; [congruence|cbn; lia]).
  assert (Li : i + List.length zs < len) by (apply nth_error_Some; congruence).
  rewrite app_length. cbn [List.length].
  assert (FIN : forall (v : A) l, good at_ (List.length zs) (fun o => o = Skip (List.length zs)) (y_skip ins v (i + List.length zs + l) (at_ i) (i + List.length zs - i)) i v (i + (List.length zs + l))).
  { intros u l. replace (i + List.length zs - i) with (List.length zs) by lia. rewrite Nat.add_assoc. repeat split. cbn. eauto. }
  destruct q as [| | | |test|teq zq lb|teq zq lb| | | | | | | | | | | | | | | | |]; cbn in L; try contradiction; cbn in Hq, H1; apply sent_inv in Hv; cbn in Hv.
  - destruct Hv as [Hv Ht]. injection Hv as <-.
    assert (M : forall k, i <= k < i + List.length zs -> sat_miss test s k).
    { intros k Hk t Hnt. destruct (NT k Hk) as (z & Q & Hin). assert (t = z) by congruence. subst t.
      destruct (Hq z) as [[] Q']; auto. exfalso. apply (Hn z Hin). exists [], z. apply (la_sat E test z Q'). }
    eexists. split; [apply (md_sat E s at_ test m i ins left (i + List.length zs) x); [apply M; lia|]|].
    + split; [lia|]. split; [split; [exact NX|exact Ht]|]. intros k Hk; apply M; lia.
    + split; [apply FIN|reflexivity].
  - destruct Hv as [Hv Ht]. injection Hv as <-.
    assert (M : forall k, i <= k < i + List.length zs -> sym_miss teq zq s k).
    { intros k Hk t' Hnt. destruct (NT k Hk) as (z & Q & Hin). assert (t' = z) by congruence. subst t'.
      destruct (teq z zq) eqn:Q'; auto. exfalso. apply (Hn z Hin). exists [], z. apply (la_sym E teq zq lb z Q'). }
    eexists. split; [apply (md_sym_skip E s at_ teq zq lb m i ins left (i + List.length zs) x); [apply M; lia|]|].
    + split; [lia|]. split; [split; [exact NX|exact Ht]|]. intros k Hk; apply M; lia.
    + split; [apply FIN|reflexivity].
  - destruct Hv as [-> Hv]. destruct zq as [|z0 [|z' zq]]; cbn in H1; try discriminate.
    inversion Hv as [|a b la1 la2 Q _]; subst.
    assert (ST : forall k t, nth_error s k = Some t -> stands_at teq [z0] s k = teq t z0).
    { intros k t Hk. unfold stands_at. apply skipn_nth in Hk as [l ->]. cbn. destruct (teq t z0); reflexivity. }
    assert (M : forall k, i <= k < i + List.length zs -> lit_miss teq [z0] s k).
    { intros k Hk. destruct (NT k Hk) as (z & Qz & Hin). unfold lit_miss. rewrite (ST _ _ Qz).
      destruct (teq z z0) eqn:Q'; auto. exfalso. apply (Hn z Hin). exists [], [z0].
      apply (la_lit E teq [z0] lb [z]). constructor; auto. }
    eexists. split; [apply (md_lit_skip E s at_ teq [z0] lb m i ins left (i + List.length zs)); [apply M; lia|]|].
    + split; [lia|]. split; [unfold lit_hit; rewrite (ST _ _ NX); exact Q|]. intros k Hk; apply M; lia.
    + split; [apply (FIN [z0] 1)|reflexivity].
Qed.
Lemma leaf_many zs after ins A (q : gram A) m i left v : zs <> [] -> is_leaf q -> everywhere E (fit E s at_) q -> apart_node E x A q ->
  sentence E q [x] v -> i <= len -> skipn i s = (zs ++ [x]) ++ after -> NV E zs q [] -> True ->
  exists y, mend E s at_ A q m i ins (Some left) y /\
    good at_ (List.length zs) (fun o => o = Skip (List.length zs)) y i v (i + List.length (zs ++ [x])).
Proof.
  intros Hz L Hf _ Hv Hle Hs Hn _. destruct (leaf_skips zs after ins A q m i left v Hz L Hf Hv Hle Hs Hn) as (y & M & G & _). eauto.
Qed.
End Leaves.

(** ** What both theorems share *)
Section Top.
Context {T : Type} {V : nat -> Type} (E : env T V) {A : Type} (g : gram T V A).
Variables (s : list T) (get : loc -> list T -> nat -> loc) (locof : nat -> loc).
Hypotheses (HE : wf_env E) (Hg : wf g) (Hco : cohere get s locof) (Hl : lay_ok E g s locof).
Hypotheses (Hc : everywhere E (completable_node E) g) (HL : LL1 E g).
Hypotheses (Hq : everywhere E (quiet_node E) g) (Hgd : guarded E g).
Hypotheses (H1 : everywhere E one_token_node g) (Hef : everywhere E eof_free_node g).

Lemma fits_g : everywhere E (fit E s locof) g.
Proof using All.
  intros B q Ho. destruct (lay_gok _ _ _ _ _ HE Hg Hl) as [G1 G2].
  split; [split; [eapply occurs_wf; eauto|split; [apply Hc|apply Hq]; auto]|].
  split; [split; [exact (proj1 (guarded_everywhere E A g) Hgd B q Ho)|exact (occurs_gok E s locof G2 B q A g Ho G1)]|].
  split; [apply H1; auto|apply Hef; auto].
Qed.

Lemma mend_missing s1 x s2 v mi : everywhere E (apart_node E x) g -> everywhere E (insertable_node x) g ->
  sentence E g (s1 ++ x :: s2) v -> s = s1 ++ s2 -> noticed E g s1 s2 -> mi <> 0%Z ->
  exists y, mend E s locof A (seql g GEof) 0 0 mi (Some mi) y /\ y_cost y = 1 /\ y_val y = v.
Proof using All.
  intros Ha Hi Hv Hs Hn Hm. destruct HL as (F & HL1 & HF). destruct (lay_gok _ _ _ _ _ HE Hg Hl) as [G1 G2].
  destruct (miss E s get locof HE Hco G2 F HF x [] s2 (firstn 1 s2) mi 1 (fun o => exists l, o = Insert l) (fun z => z <> 0%Z)
    ltac:(destruct s2; cbn; auto) Hm (fun B q => apart_node E x B q /\ insertable_node x B q) (fun B q K => proj1 K) (fun A q m i left v => leaf_missing E s locof x s2 mi A q m i left v)
    A g _ v Hv s1 s2 eq_refl 0%Z 0 (fun o => o = None) [] (Some mi)) as (y & My & Gy); auto.
  - apply fits_g; auto.
  - intros B q Ho. split; auto.
  - lia.
  - cbn. symmetry. apply app_nil_r.
  - intros z Hz. destruct s2 as [|t s2]; [destruct Hz|]. destruct Hz as [<-|[]]. exact Hn.
  - eauto.
  - pose proof Gy as (G3 & G4 & G5 & _). cbn [List.length] in G5.
    assert (Q : y_pos y = List.length s) by (rewrite G5, Hs, app_length; lia).
    eexists. split; [eapply md_seq_1; [exact My|rewrite Q; apply pg_eof]|]. cbn. auto.
Qed.

Lemma mend_many s1 zs s2 v mi : match s2 with [] => True | x :: _ => everywhere E (apart_node E x) g end ->
  sentence E g (s1 ++ s2) v -> s = s1 ++ zs ++ s2 -> zs <> [] -> (forall z, In z zs -> ~ viable E g (s1 ++ [z])) ->
  exists y, mend E s locof A (seql g GEof) 0 0 mi (Some mi) y /\ y_cost y = List.length zs /\ y_val y = v /\
    y_ops y = [(Skip (List.length zs), locof (List.length s1))].
Proof using All.
  intros Ha Hv Hs Hz Hn. destruct HL as (F & HL1 & HF). destruct (lay_gok _ _ _ _ _ HE Hg Hl) as [G1 G2].
  destruct s2 as [|x s2].
  - rewrite app_nil_r in Hv. rewrite app_nil_r in Hs. destruct zs as [|z zs]; [congruence|].
    assert (R : peg E s (fun i => loc_col (locof i)) A g 0 0 (PSucc v (0 + List.length s1))).
    { eapply (stop E s get locof HE Hco G2 F HF A g _ v Hv s1 eq_refl); eauto.
      - apply fits_g; auto.
      - lia.
      - cbn. apply Hn. left. reflexivity. }
    cbn [Nat.add] in R. assert (L : List.length s1 < List.length s) by (rewrite Hs, app_length; cbn; lia).
    eexists. split; [eapply md_seq_2; [exact R|]|].
    + destruct (Nat.ltb 0 (List.length s1)); apply md_eof; auto.
    + cbn. rewrite Hs, app_length. cbn [List.length]. replace (List.length s1 + S (List.length zs) - List.length s1) with (S (List.length zs)) by lia. auto.
  - destruct (miss E s get locof HE Hco G2 F HF x (zs ++ [x]) (zs ++ x :: s2) zs mi (List.length zs) (fun o => o = Skip (List.length zs)) (fun _ => True)
      ltac:(destruct zs; cbn; auto; congruence) I (apart_node E x)) with (g := g) (W := map (@inl T string) (s1 ++ x :: s2)) (v := v) (w1 := s1) (w2 := s2) (m := 0%Z) (ii := 0)
      (K := fun o : option T => o = None) (rest := @nil T) (rem := Some mi) as (y & My & Gy); auto.
    + intros B q m i left u K1 K2 K3 K4 K5 K6 K7 K8.
      apply (leaf_many E s locof x zs s2 mi B q m i left u Hz K1 K2 K3 K4 K5); auto. rewrite K6, <- app_assoc. reflexivity.
    + apply fits_g; auto.
    + lia.
    + cbn. rewrite <- app_assoc, app_nil_r. reflexivity.
    + eauto.
    + pose proof Gy as (G3 & G4 & G5 & o & G6 & ->). rewrite app_length in G5. cbn [List.length] in G5.
      assert (Q : y_pos y = List.length s) by (rewrite G5, Hs, !app_length; cbn; lia).
      eexists. split; [eapply md_seq_1; [exact My|rewrite Q; apply pg_eof]|]. cbn. auto.
Qed.
End Top.

(** the error is where the unexpected token (or the end) is *)
Lemma first_at T V (E : env T V) n A (g : gram T V A) s1 s2 mi get fmt locof r errs w v :
  wf_env E -> wf g -> cohere get (s1 ++ s2) locof -> lay_ok E g (s1 ++ s2) locof ->
  everywhere E (completable_node E) g -> LL1 E g -> everywhere E one_token_node g ->
  everywhere E (fun B q => ~ is_layout B q) g -> single_withs E g ->
  sentence E g (s1 ++ w) v -> noticed E g s1 s2 ->
  parse E n (seql g GEof) (s1 ++ s2) true mi get fmt = Ret r -> unwrap r false = Raises errs ->
  exists e tl, errs = e :: tl /\ ei_loc e = locof (List.length s1).
Proof.
  intros HE Hg Hco Hl Hc HL H1 Hnl Hsw Hv Hn H Hu.
  destruct (C49_exact_position_recovering _ _ _ _ _ _ _ _ _ _ _ _ _ HE Hg Hco Hl Hc (ex_intro _ _ (ex_intro _ _ Hv)) HL (one_next _ _ _ _ _ H1) Hnl Hsw H Hu)
    as (p & e & tl & -> & L & P1 & P2 & P3 & P4).
  exists e, tl. split; auto. rewrite L. f_equal.
  destruct (Nat.lt_trichotomy p (List.length s1)) as [Q|[Q|Q]]; auto; exfalso.
  - apply P3; [rewrite app_length; lia|]. rewrite firstn_app. replace (p + 1 - List.length s1) with 0 by lia. cbn. rewrite app_nil_r.
    apply (vb_prefix E A g _ (skipn (p + 1) s1)). rewrite firstn_skipn. exists w, v. exact Hv.
  - destruct s2 as [|y s2]; [rewrite app_nil_r in P1; lia|]. apply Hn.
    apply (vb_prefix E A g _ (firstn (p - List.length s1 - 1) s2)). rewrite firstn_app, firstn_all2 in P2 by lia.
    replace (p - List.length s1) with (S (p - List.length s1 - 1)) in P2 by lia. cbn in P2. rewrite <- app_assoc. exact P2.
Qed.

(** ** A forgotten token costs exactly one error, reported where it is missing *)
Theorem C75_missing :
  forall T V (E : env T V) n A (g : gram T V A) s1 x s2 v mi get fmt locof r,
  wf_env E -> wf g -> cohere get (s1 ++ s2) locof -> lay_ok E g (s1 ++ s2) locof ->
  everywhere E (completable_node E) g -> LL1 E g -> everywhere E (quiet_node E) g -> guarded E g ->
  everywhere E one_token_node g -> everywhere E (fun B q => ~ is_layout B q) g -> everywhere E eof_free_node g ->
  single_withs E g ->
  everywhere E (apart_node E x) g -> everywhere E (insertable_node x) g ->
  sentence E g (s1 ++ x :: s2) v -> noticed E g s1 s2 -> mi <> 0%Z ->
  parse E n (seql g GEof) (s1 ++ s2) true mi get fmt = Ret r ->
  exists e w, unwrap r false = Raises [e] /\ unwrap r true = Returns w /\
    ei_loc e = locof (List.length s1) /\ (ei_op e = Some (Skip 1) \/ exists l, ei_op e = Some (Insert l)).
Proof.
  intros T V E n A g s1 x s2 v mi get fmt locof r HE Hg Hco Hl Hc HL Hq Hgd H1 Hnl Hef Hsw Ha Hi Hv Hn Hm H.
  destruct (mend_missing E g (s1 ++ s2) get locof HE Hg Hco Hl Hc HL Hq Hgd H1 Hef s1 x s2 v mi Ha Hi Hv eq_refl Hn Hm) as (y & My & Cy & _).
  destruct (C74_one_error _ _ _ _ _ _ _ _ _ _ _ _ _ HE (wf_eof _ _ Hg) Hco (lay_eof _ _ _ _ _ Hl) H My Cy) as (e & w & U1 & U2 & O).
  exists e, w. split; auto. split; auto. split; auto.
  destruct (first_at _ _ _ _ _ _ _ _ _ _ _ _ _ _ _ _ HE Hg Hco Hl Hc HL H1 Hnl Hsw Hv Hn H U1) as (e' & tl & Q & L).
  injection Q as <- _. exact L.
Qed.
Print Assumptions C75_missing.

Lemma one_edit {T} (es : list (edit T)) : forall i o p, edits_ops i es = [(o, p)] ->
  exists a ed b, es = map (@EKeep T) a ++ ed :: map (@EKeep T) b /\ p = i + List.length a /\
    match ed with ESkip ts => o = Skip (List.length ts) | EIns l _ => o = Insert l | EKeep _ => False end.
Proof.
  assert (N : forall (es0 : list (edit T)) i, edits_ops i es0 = [] -> exists b, es0 = map (@EKeep T) b).
  { intros es0. induction es0 as [|[t|ts|l w] es1 IH]; intros i H; cbn in H; try discriminate; [exists []; reflexivity|].
    destruct (IH _ H) as [b ->]. exists (t :: b). reflexivity. }
  induction es as [|[t|ts|l w] es IH]; intros i o p H; cbn in H; try discriminate.
  - destruct (IH _ _ _ H) as (a & ed & b & -> & -> & K). exists (t :: a), ed, b. cbn. split; [reflexivity|]. split; [lia|exact K].
  - injection H as <- <- H. destruct (N _ _ H) as [b ->]. exists [], (ESkip ts), b. cbn. auto.
  - injection H as <- <- H. destruct (N _ _ H) as [b ->]. exists [], (EIns l w), b. cbn. auto.
Qed.
Lemma keep_in {T} (a : list T) : edits_in (map (@EKeep T) a) = a.
Proof. induction a as [|t a IH]; cbn; auto. unfold edits_in in IH. rewrite IH. reflexivity. Qed.
Lemma keep_out {T} (a : list T) : edits_out (map (@EKeep T) a) = map inl a.
Proof. induction a as [|t a IH]; cbn; auto. unfold edits_out in IH. rewrite IH. reflexivity. Qed.

Lemma inserts_eof T V (E : env T V) A (g : gram T V A) l w : inserts E (seql g GEof) l w -> inserts E g l w.
Proof.
  intros (B & q & Ho & Hq).
  refine (ev_eof E (fun B q => insert_node q l w -> inserts E g l w) A g _ _ _ B q Ho Hq); cbn; try tauto.
  intros B' q' Ho' Hq'. exists B', q'. auto.
Qed.

(** ... it is put back, and the value is the one of the input with it, if it is
    the only thing that can be inserted there and skipping the next token does not help *)
Theorem C75_inserted :
  forall T V (E : env T V) n A (g : gram T V A) s1 x s2 v mi get fmt locof r,
  wf_env E -> wf g -> cohere get (s1 ++ s2) locof -> lay_ok E g (s1 ++ s2) locof ->
  (forall p q, p <= List.length (s1 ++ s2) -> q <= List.length (s1 ++ s2) -> locof p = locof q -> p = q) ->
  everywhere E (completable_node E) g -> LL1 E g -> everywhere E (quiet_node E) g -> guarded E g ->
  everywhere E one_token_node g -> everywhere E (fun B q => ~ is_layout B q) g -> everywhere E eof_free_node g ->
  single_withs E g ->
  everywhere E (apart_node E x) g -> everywhere E (insertable_node x) g ->
  sentence E g (s1 ++ x :: s2) v -> noticed E g s1 s2 -> mi <> 0%Z ->
  (forall y s3 u, s2 = y :: s3 -> ~ sentence E g (s1 ++ s3) u) ->
  (forall l w u, inserts E g l w -> lang E A g (map inl s1 ++ w ++ map inl s2) u -> w = [inl x]) ->
  parse E n (seql g GEof) (s1 ++ s2) true mi get fmt = Ret r ->
  exists e l, unwrap r false = Raises [e] /\ unwrap r true = Returns v /\
    ei_loc e = locof (List.length s1) /\ ei_op e = Some (Insert l) /\ inserts E g l [inl x].
Proof.
  intros T V E n A g s1 x s2 v mi get fmt locof r HE Hg Hco Hl Hinj Hc HL Hq Hgd H1 Hnl Hef Hsw Ha Hi Hv Hn Hm Hd Ho H.
  destruct (C75_missing _ _ _ _ _ _ _ _ _ _ _ _ _ _ _ HE Hg Hco Hl Hc HL Hq Hgd H1 Hnl Hef Hsw Ha Hi Hv Hn Hm H) as (e & w & U1 & U2 & L & O).
  pose proof (parse_eof_ends _ _ _ _ _ _ _ _ _ _ H) as Hend.
  destruct (unwrap_repair _ _ _ _ _ _ _ _ _ _ _ H U2 U1) as (rc & rep & Hr & Hin & -> & Q).
  rewrite Hr in Hend. simpl in Hend. specialize (Hend _ Hin).
  destruct (repair_script_loc _ _ _ _ _ _ _ _ _ _ _ _ HE (wf_eof _ _ Hg) Hco (lay_eof _ _ _ _ _ Hl) H Hr Hin)
    as (es & E1 & _ & E2 & E3 & E4 & E5 & _).
  rewrite <- Q in E2. inversion E2 as [|e' [o p] es' ops (R1 & R2 & _) F Q1 Q2]. subst. inversion F. subst. cbn [fst snd] in R1, R2.
  symmetry in Q2. rewrite Q2 in E5.
  destruct (one_edit _ _ _ _ Q2) as (a & ed & b & -> & -> & K). cbn [Nat.add] in *.
  rewrite Hend in E1. unfold slice in E1. rewrite Nat.sub_0_r in E1. cbn [skipn] in E1. rewrite firstn_all in E1.
  assert (Ep : a = s1 /\ edit_in ed ++ b = s2).
  { unfold edits_in in E1. rewrite flat_map_app in E1. cbn [flat_map] in E1. fold (edits_in (map (@EKeep T) a)) in E1. fold (edits_in (map (@EKeep T) b)) in E1.
    rewrite !keep_in in E1.
    assert (La : List.length a = List.length s1).
    { apply Hinj; [rewrite <- E1, app_length; lia|rewrite app_length; lia|congruence]. }
    clear - E1 La. revert s1 E1 La. induction a as [|t a IH]; intros [|t' s1] E1 La; try discriminate; [auto|].
    injection E1 as -> E1. injection La as La. destruct (IH _ E1 La) as [-> ->]. auto. }
  destruct Ep as [-> Ep].
  apply (lang_inv E) in E3. cbn in E3. destruct E3 as (w1 & w2 & u1 & u2 & W & E3v & E3 & E3'). apply (lang_inv E) in E3'. cbn in E3'. subst w2. rewrite app_nil_r in W. subst w1.
  cbn in E3v.
  unfold edits_out in E3. rewrite flat_map_app in E3. cbn [flat_map] in E3. fold (edits_out (map (@EKeep T) s1)) in E3. fold (edits_out (map (@EKeep T) b)) in E3.
  rewrite !keep_out in E3.
  destruct ed as [t|ts|l w]; [destruct K| |]; cbn in Ep, E3.
  - exfalso. subst o. rewrite R1 in O. destruct O as [O|[l O]]; [|discriminate]. injection O as O. destruct ts as [|y [|? ?]]; try discriminate.
    cbn in Ep. apply (Hd y b u1 (eq_sym Ep)). unfold sentence. rewrite map_app. exact E3.
  - subst o b. assert (I : inserts E g l w) by (apply inserts_eof, E4; apply in_or_app; right; left; reflexivity).
    pose proof (Ho l w u1 I E3) as ->. exists e, l. split; auto. split; [|auto].
    rewrite U2, E3v. f_equal.
    apply (C47_unambiguous T V E A g (s1 ++ x :: s2) u1 v HE Hg Hc HL Hq Hgd); auto. unfold sentence. rewrite map_app. exact E3.
Qed.
Print Assumptions C75_inserted.

(** ** Tokens that are too many: the repair costs no more than to skip them, and
    begins at the first of them *)
Theorem C75_superfluous :
  forall T V (E : env T V) n A (g : gram T V A) s1 zs s2 v mi get fmt locof r,
  wf_env E -> wf g -> cohere get (s1 ++ zs ++ s2) locof -> lay_ok E g (s1 ++ zs ++ s2) locof ->
  everywhere E (completable_node E) g -> LL1 E g -> everywhere E (quiet_node E) g -> guarded E g ->
  everywhere E one_token_node g -> everywhere E (fun B q => ~ is_layout B q) g -> everywhere E eof_free_node g ->
  single_withs E g ->
  (forall x s3, s2 = x :: s3 -> everywhere E (apart_node E x) g) ->
  sentence E g (s1 ++ s2) v -> zs <> [] -> (forall z, In z zs -> ~ viable E g (s1 ++ [z])) ->
  parse E n (seql g GEof) (s1 ++ zs ++ s2) true mi get fmt = Ret r ->
  exists e errs ops w, unwrap r false = Raises (e :: errs) /\ unwrap r true = Returns w /\
    ei_loc e = locof (List.length s1) /\
    Forall2 (fun e o => ei_op e = Some o) (e :: errs) ops /\ ops_cost ops <= List.length zs.
Proof.
  intros T V E n A g s1 zs s2 v mi get fmt locof r HE Hg Hco Hl Hc HL Hq Hgd H1 Hnl Hef Hsw Ha Hv Hz Hn H.
  destruct (mend_many E g _ get locof HE Hg Hco Hl Hc HL Hq Hgd H1 Hef s1 zs s2 v mi ltac:(destruct s2; eauto) Hv eq_refl Hz Hn) as (y & My & Cy & _).
  destruct (C74_best_mend _ _ _ _ _ _ _ _ _ _ _ _ HE (wf_eof _ _ Hg) Hco (lay_eof _ _ _ _ _ Hl) H) as [K1 K2]. cbv zeta in K1, K2.
  destruct (unwrap r false) as [u|errs] eqn:U1; [destruct (K1 u eq_refl y My)|].
  destruct (K2 errs eq_refl) as [(e & _ & _ & _ & N)|(y' & M & U & R & B)]; [destruct (N y My)|].
  assert (C : y_cost y' <= List.length zs).
  { destruct (Nat.leb_spec (y_cost y') (List.length zs)); auto. destruct (B y My). left. lia. }
  assert (HN : noticed E g s1 (zs ++ s2)).
  { destruct zs as [|z zs]; [congruence|]. cbn. apply Hn. left. reflexivity. }
  destruct (first_at _ _ _ _ _ _ _ _ _ _ _ _ _ _ _ _ HE Hg Hco Hl Hc HL H1 Hnl Hsw Hv HN H U1) as (e & tl & -> & L).
  exists e, tl, (map fst (y_ops y')), (y_val y'). split; auto. split; auto. split; auto. split.
  - unfold y_reported in R. clear - R. induction R as [|a b la lb (R1 & _) _ IH]; cbn; constructor; auto.
  - destruct (mend_cost _ _ _ _ _ _ _ _ _ _ M) as (_ & _ & <-). exact C.
Qed.
Print Assumptions C75_superfluous.

(** one token too many, where neither recover nor recover_with is used: it is
    skipped, and the value is the one of the input without it *)
Theorem C75_one_too_many :
  forall T V (E : env T V) n A (g : gram T V A) s1 z s2 v mi get fmt locof r,
  wf_env E -> wf g -> cohere get (s1 ++ z :: s2) locof -> lay_ok E g (s1 ++ z :: s2) locof ->
  (forall p q, p <= List.length (s1 ++ z :: s2) -> q <= List.length (s1 ++ z :: s2) -> locof p = locof q -> p = q) ->
  everywhere E (completable_node E) g -> LL1 E g -> everywhere E (quiet_node E) g -> guarded E g ->
  everywhere E one_token_node g -> everywhere E eof_free_node g -> recover_free E g ->
  (forall x s3, s2 = x :: s3 -> everywhere E (apart_node E x) g) ->
  sentence E g (s1 ++ s2) v -> ~ viable E g (s1 ++ [z]) ->
  parse E n (seql g GEof) (s1 ++ z :: s2) true mi get fmt = Ret r ->
  exists e, unwrap r false = Raises [e] /\ unwrap r true = Returns v /\
    ei_op e = Some (Skip 1) /\ ei_loc e = locof (List.length s1).
Proof.
  intros T V E n A g s1 z s2 v mi get fmt locof r HE Hg Hco Hl Hinj Hc HL Hq Hgd H1 Hef Hrf Ha Hv Hn H.
  destruct (mend_many E g _ get locof HE Hg Hco Hl Hc HL Hq Hgd H1 Hef s1 [z] s2 v mi ltac:(destruct s2; eauto) Hv eq_refl ltac:(discriminate)) as (y & My & Cy & _ & Oy).
  { intros z' [<-|[]]. exact Hn. }
  assert (HA : attempt_free E g).
  { intros B q Ho. specialize (H1 B q Ho). destruct q; cbn in *; tauto. }
  destruct (C74_superfluous_value _ _ _ _ _ _ _ _ _ _ _ _ _ _ HE Hg Hco Hl Hrf HA Hc HL Hq Hgd H My Oy)
    as (e & w & a & x & b & U1 & U2 & O & L & W & L' & K).
  assert (Q : List.length a = List.length s1).
  { apply Hinj; [rewrite W, app_length; cbn; lia|rewrite app_length; cbn; lia|congruence]. }
  assert (Q' : a = s1 /\ x :: b = z :: s2).
  { clear - W Q. revert s1 W Q. induction a as [|t a IH]; intros [|t' s1] W Q; try discriminate; [auto|].
    injection W as -> W. injection Q as Q. destruct (IH _ W Q) as [-> ->]. auto. }
  destruct Q' as [-> Q']. injection Q' as -> ->.
  exists e. split; auto. split; [|auto]. rewrite U2. f_equal.
  destruct (K false 0%Z default_fmt_loc ltac:(lia)) as (n' & r' & P' & U').
  pose proof (proj1 (C47_ll1_accepts_the_language _ _ _ _ _ _ _ _ _ _ _ _ _ HE Hg (default_cohere _) (or_introl (default_exact _)) Hc HL P' w) U') as S'.
  exact (C47_unambiguous _ _ _ _ _ _ _ _ HE Hg Hc HL Hq Hgd S' Hv).
Qed.
Print Assumptions C75_one_too_many.
(** ** A case: a digit and a semicolon, with one character too many in between *)
Definition ex_dE : env char ex_V := fun _ => ex_wfree.
Lemma ex_d_sent w v : sentence ex_dE ex_digit w v -> exists d, w = [d] /\ a_digit d /\ v = (Z.of_N d - 48)%Z.
Proof.
  intros H. apply sent_inv in H as (d & H & K). injection K as <-. do 2 apply sent_inv in H. destruct H as [-> H].
  exists d. split; auto. split; auto. injection H as H. apply andb_prop in H as [H1 H2]. apply N.leb_le in H1, H2. split; assumption.
Qed.
Lemma ex_wfree_sent w v : sentence ex_dE ex_wfree w v -> exists d, w = [d; ex_ch ";"] /\ a_digit d /\ v = (Z.of_N d - 48)%Z.
Proof.
  intros H. apply sent_inv in H as (w1 & w2 & v1 & v2 & -> & -> & H1 & H2). apply ex_d_sent in H1 as (d & -> & D & ->).
  apply sent_inv in H2 as [-> H2]. apply N.eqb_eq in H2. subst. exists d. auto.
Qed.
Lemma ex_wfree_is d : a_digit d -> sentence ex_dE ex_wfree [d; ex_ch ";"] (Z.of_N d - 48)%Z.
Proof.
  intros [D1 D2]. apply (se_seq ex_dE _ _ _ ex_digit (ex_sym ";") (fun a _ => a) [d] [ex_ch ";"] (Z.of_N d - 48)%Z (ex_ch ";")).
  - eapply la_fmap; [|reflexivity]. apply la_label. constructor. apply N.leb_le in D1, D2. rewrite D1, D2. reflexivity.
  - constructor. reflexivity.
Qed.
Theorem C75_case_one_too_many : forall d z n r, a_digit d -> z <> ex_ch ";" ->
  scannerless_parse ex_dE n (seql ex_wfree GEof) [d; z; ex_ch ";"] true = Ret r ->
  exists e, unwrap r false = Raises [e] /\ unwrap r true = Returns (Z.of_N d - 48)%Z /\
    ei_op e = Some (Skip 1) /\ ei_loc e = true_loc [d; z; ex_ch ";"] 1.
Proof.
  intros d z n r D Z0 H.
  refine (C75_one_too_many char ex_V ex_dE n Z ex_wfree [d] z [ex_ch ";"] (Z.of_N d - 48)%Z 5 scannerless_get_loc linecol_fmt
    (true_loc [d; z; ex_ch ";"]) r _ _ (scannerless_cohere _) (or_introl (scannerless_exact _)) _ _ _ _ _ _ _ _ _ (ex_wfree_is d D) _ H).
  - intros k. repeat split.
  - repeat split.
  - intros p q _ _ Q. apply (f_equal loc_pos) in Q. cbn in Q. lia.
  - apply everywhere_gall; [intros k|]; solve_gall; try (intros; eexists; reflexivity); exists [ex_ch ";"], (ex_ch ";"); constructor; reflexivity.
  - exists (fun _ _ => False). split; [|intros k]; cbn; auto.
  - apply everywhere_gall; [intros k|]; solve_gall; intros; eexists; reflexivity.
  - intros k _. constructor. intros k' Hk. exfalso. apply lcall_inv in Hk as [Hk|[[v Hk] _]]; [do 3 apply lcall_inv in Hk; exact Hk|].
    apply lang_inv in Hk as (? & Hk & _). do 2 apply lang_inv in Hk. destruct Hk as [Hk _]. discriminate.
  - apply everywhere_gall; [intros k|]; solve_gall.
  - apply everywhere_gall; [intros k|]; solve_gall.
  - apply everywhere_gall; [intros k|]; solve_gall.
  - intros x s3 Q. apply everywhere_gall; [intros k|]; solve_gall.
  - intros (w & v & K). apply ex_wfree_sent in K as (d' & Q & _). cbn [app] in Q. injection Q as Q1 Q2 Q3. exact (Z0 Q2).
Qed.
Print Assumptions C75_case_one_too_many.
