(** Property C69: interruptions. *)
From Verif Require Import InterpProofs CostFull DepthBound DepthFullProofs PropsCost PropsCostFull PropsTotal PropsTerm PropsDepth Examples.
Import ListNotations.

(** ** The instances *)
Definition depths : effects := Effects dm (@dret) (@dbind) (@nest) (fun _ _ m => m).
Definition costs : effects := Effects cm (@cret) (@cbind) (@tick) (fun _ _ m => m).
Lemma gparse_depths T V (E : env T V) n A (g : gram T V A) s rec mi get fmt :
  gparse depths E n g s rec mi get fmt =
  (fst (if rec then parse_nested_rec E n g s mi get fmt else parse_nested E n g s get fmt),
   parse E n g s rec mi get fmt).
Proof.
  unfold gparse. cbv zeta. destruct rec.
  - rewrite <- (proj2 (C60_nested T V E A n g s mi get fmt)). unfold parse_nested_rec.
    change (@gfull depths T V) with (@dfull T V). cbn [x_bind depths x_lift fst snd].
    unfold dbind. destruct (dfull E n g s 0 (init_ctx get) mi (Some mi)) as [d [r|e|]]; cbn; rewrite ?Nat.max_0_r; reflexivity.
  - rewrite <- (proj1 (C60_nested T V E A n g s mi get fmt)). unfold parse_nested.
    change (@gfast depths T V) with (@dfast T V). cbn [x_bind depths x_lift fst snd].
    unfold dbind. destruct (dfast E n g s 0 (init_ctx get)) as [d [r|e|]]; cbn; rewrite ?Nat.max_0_r; reflexivity.
Qed.
Lemma gparse_costs T V (E : env T V) n A (g : gram T V A) s rec mi get fmt :
  fst (gparse costs E n g s rec mi get fmt) =
  fst (if rec then parse_counted_rec E n g s mi get fmt else parse_counted E n g s get fmt).
Proof.
  unfold gparse. cbv zeta. destruct rec.
  - unfold parse_counted_rec. change (@gfull costs T V) with (@CostFull.cfull T V). cbn [x_bind costs x_lift fst snd].
    unfold cbind. destruct (CostFull.cfull E n g s 0 (init_ctx get) mi (Some mi)) as [d [r|e|]]; cbn; rewrite ?Nat.add_0_r; reflexivity.
  - unfold parse_counted. change (@gfast costs T V) with (@Cost.cfast T V). cbn [x_bind costs x_lift fst snd].
    unfold cbind. destruct (Cost.cfast E n g s 0 (init_ctx get)) as [d [r|e|]]; cbn; rewrite ?Nat.add_0_r; reflexivity.
Qed.

(** ** The relations *)
Fixpoint first_hit (hits : nat -> nat -> bool) (k : nat) (l : list nat) : option nat :=
  match l with [] => None | d :: l => if hits k d then Some k else first_hit hits (S k) l end.
Lemma first_app hits l l' : forall k, first_hit hits k (l ++ l') =
  match first_hit hits k l with Some i => Some i | None => first_hit hits (k + List.length l) l' end.
Proof.
  induction l as [|d l IH]; intros k; cbn; [rewrite Nat.add_0_r; reflexivity|]. destruct (hits k d); auto.
  rewrite IH. replace (S k + List.length l) with (k + S (List.length l)) by lia. reflexivity.
Qed.
Definition follows hits A (m : disturbed hits A) (m' : moments A) : Prop :=
  forall d k, m d k = match first_hit hits k (fst (m' d)) with
                      | Some i => (i, None)
                      | None => (k + List.length (fst (m' d)), Some (snd (m' d)))
                      end.
Lemma gparse_follows hits T V (E : env T V) n A (g : gram T V A) s rec mi get fmt :
  follows hits _ (gparse (disturbed hits) E n g s rec mi get fmt) (gparse moments E n g s rec mi get fmt).
Proof.
  apply gparse_rel.
  - intros B o d k. cbn. rewrite Nat.add_0_r. reflexivity.
  - intros B C m m' f f' H Hf d k. cbn. unfold xbind, mbind. rewrite H. destruct (m' d) as [l [a|e|]]; cbn [fst snd].
    + specialize (Hf a d). destruct (f' a d) as [l' o]. cbn [fst snd] in *. rewrite first_app.
      destruct (first_hit hits k l); [reflexivity|]. rewrite Hf. rewrite app_length, Nat.add_assoc. reflexivity.
    + destruct (first_hit hits k l); reflexivity.
    + destruct (first_hit hits k l); reflexivity.
  - intros B m m' H d k. cbn. unfold xcall, mcall. specialize (H (S d) (S k)). destruct (m' (S d)) as [l o]. cbn [fst snd first_hit] in *.
    destruct (hits k (S d)); [reflexivity|]. rewrite H, first_app. destruct (first_hit hits (S k) l); [reflexivity|].
    cbn [first_hit]. destruct (hits (S k + List.length l) (S d)); [reflexivity|]. cbn. rewrite app_length. cbn. f_equal. lia.
  - intros B d m m' H. exact H.
Qed.
Definition as_deep A (m : moments A) (m' : depths A) : Prop :=
  forall d, snd (m d) = snd m' /\ forall L, d <= L -> (Forall (fun x => x <= L) (fst (m d)) <-> d + fst m' <= L).
Lemma gparse_as_deep T V (E : env T V) n A (g : gram T V A) s rec mi get fmt :
  as_deep _ (gparse moments E n g s rec mi get fmt) (gparse depths E n g s rec mi get fmt).
Proof.
  apply gparse_rel.
  - intros B o d. cbn. split; auto. intros L HL. split; [lia|constructor].
  - intros B C m m' f f' H Hf d. cbn. unfold dbind, mbind. destruct (H d) as [H1 H2]. rewrite <- H1.
    destruct (m d) as [l [a|e|]]; cbn [fst snd] in *; [|auto..].
    specialize (Hf a d). destruct (f a d) as [l' o]. destruct Hf as [F1 F2]. cbn [fst snd] in *. split; auto.
    intros L HL. rewrite Forall_app, (H2 L HL), (F2 L HL). lia.
  - intros B m m' H d. cbn. unfold nest, mcall. destruct (H (S d)) as [H1 H2]. destruct (m (S d)) as [l o]. cbn [fst snd] in *.
    split; auto. intros L HL. rewrite Forall_cons_iff, Forall_app, Forall_cons_iff. split.
    + intros (A1 & A2 & _). apply H2 in A2; lia.
    + intros X. split; [lia|]. split; [apply H2; lia|]. split; [lia|constructor].
  - intros B d m m' H. exact H.
Qed.
Definition as_many A (m : moments A) (m' : costs A) : Prop :=
  forall d, snd (m d) = snd m' /\ List.length (fst (m d)) = 2 * fst m'.
Lemma gparse_as_many T V (E : env T V) n A (g : gram T V A) s rec mi get fmt :
  as_many _ (gparse moments E n g s rec mi get fmt) (gparse costs E n g s rec mi get fmt).
Proof.
  apply gparse_rel.
  - intros B o d. cbn. auto.
  - intros B C m m' f f' H Hf d. cbn. unfold cbind, mbind. destruct (H d) as [H1 H2]. rewrite <- H1.
    destruct (m d) as [l [a|e|]]; cbn [fst snd] in *; [|auto..].
    specialize (Hf a d). destruct (f a d) as [l' o]. destruct Hf as [F1 F2]. cbn [fst snd] in *. split; auto.
    rewrite app_length. lia.
  - intros B m m' H d. cbn. unfold tick, mcall. destruct (H (S d)) as [H1 H2]. destruct (m (S d)) as [l o]. cbn [fst snd] in *.
    split; auto. cbn. rewrite app_length. cbn. lia.
  - intros B d m m' H. exact H.
Qed.
Lemma first_hit_some hits l : forall k i, first_hit hits k l = Some i ->
  k <= i /\ (exists d, nth_error l (i - k) = Some d /\ hits i d = true) /\
  (forall j d, k <= j < i -> nth_error l (j - k) = Some d -> hits j d = false).
Proof.
  induction l as [|d l IH]; intros k i H; [discriminate|]. cbn in H. destruct (hits k d) eqn:Hd.
  - injection H as <-. rewrite Nat.sub_diag. split; auto. split; [exists d; auto|]. intros; lia.
  - destruct (IH _ _ H) as (H1 & (d' & H2 & H3) & H4). split; [lia|]. split.
    + exists d'. replace (i - k) with (S (i - S k)) by lia. auto.
    + intros j x Hj Hx. destruct (Nat.eq_dec j k) as [->|Hn].
      * rewrite Nat.sub_diag in Hx. cbn in Hx. congruence.
      * replace (j - k) with (S (j - S k)) in Hx by lia. apply (H4 j x); [lia|auto].
Qed.
Lemma first_hit_none hits l : forall k, first_hit hits k l = None -> forall j d, nth_error l j = Some d -> hits (k + j) d = false.
Proof.
  induction l as [|d l IH]; intros k H j x Hj; [destruct j; discriminate|]. cbn in H. destruct (hits k d) eqn:Hd; [discriminate|].
  destruct j as [|j]; cbn in Hj; [rewrite Nat.add_0_r; congruence|]. rewrite Nat.add_succ_r. apply (IH (S k) H j x Hj).
Qed.

(** ** The theorems *)
(** Whatever happens when: the outcome of the undisturbed parse, or the exception. *)
Theorem C69_all_or_nothing :
  forall T V (E : env T V) n A (g : gram T V A) s rec mi get fmt hits,
  snd (parse_disturbed hits E n g s rec mi get fmt) = Some (parse E n g s rec mi get fmt) \/
  snd (parse_disturbed hits E n g s rec mi get fmt) = None.
Proof.
  intros. unfold parse_disturbed. rewrite gparse_follows.
  destruct (gparse_as_deep T V E n A g s rec mi get fmt 0) as [H _]. rewrite gparse_depths in H. cbn [snd] in H.
  destruct (first_hit hits 0 _); [right; reflexivity|left]. cbn [snd]. rewrite <- H. reflexivity.
Qed.
Print Assumptions C69_all_or_nothing.

(** It is the exception exactly if it is raised at one of the moments of the undisturbed
    parse, and then the parse ends at the first one. *)
Theorem C69_interrupted_iff :
  forall T V (E : env T V) n A (g : gram T V A) s rec mi get fmt hits,
  let moms := parse_moments E n g s rec mi get fmt in
  let run := parse_disturbed hits E n g s rec mi get fmt in
  (snd run = None <-> exists k d, nth_error moms k = Some d /\ hits k d = true) /\
  (snd run = None ->
     (exists d, nth_error moms (fst run) = Some d /\ hits (fst run) d = true) /\
     (forall k d, k < fst run -> nth_error moms k = Some d -> hits k d = false)).
Proof.
  intros. subst moms run. unfold parse_moments.
  assert (X : parse_disturbed hits E n g s rec mi get fmt = _) by apply gparse_follows. rewrite X. clear X.
  set (l := fst (gparse moments E n g s rec mi get fmt 0)). destruct (first_hit hits 0 l) as [i|] eqn:F; cbn [fst snd].
  - destruct (first_hit_some _ _ _ _ F) as (_ & (d & H1 & H2) & H3). rewrite Nat.sub_0_r in H1. split.
    + split; [intros _; exists i, d; auto|reflexivity].
    + intros _. split; [exists d; auto|]. intros k x Hk Hx. apply (H3 k x); [lia|]. rewrite Nat.sub_0_r. exact Hx.
  - split; [|discriminate]. split; [discriminate|]. intros (k & d & Hk & Hh). pose proof (first_hit_none _ _ _ F _ _ Hk) as X. cbn in X. congruence.
Qed.
Print Assumptions C69_interrupted_iff.

(** A run has two moments for each call of a parse function that the undisturbed parse
    makes (C57, C58). *)
Theorem C69_moments :
  forall T V (E : env T V) n A (g : gram T V A) s rec mi get fmt,
  List.length (parse_moments E n g s rec mi get fmt) =
  2 * fst (if rec then parse_counted_rec E n g s mi get fmt else parse_counted E n g s get fmt).
Proof.
  intros. unfold parse_moments. destruct (gparse_as_many T V E n A g s rec mi get fmt 0) as [_ H]. rewrite H, gparse_costs. reflexivity.
Qed.
Print Assumptions C69_moments.

(** The recursion limit: at most [L] parse functions may be active.  The parse raises
    RecursionError exactly if it needs more, otherwise the limit has no effect. *)
Definition limit (L : nat) (_ d : nat) : bool := Nat.ltb L d.
Theorem C69_recursion_limit :
  forall T V (E : env T V) n A (g : gram T V A) s rec mi get fmt L,
  snd (parse_disturbed (limit L) E n g s rec mi get fmt) =
  if Nat.leb (fst (if rec then parse_nested_rec E n g s mi get fmt else parse_nested E n g s get fmt)) L
  then Some (parse E n g s rec mi get fmt) else None.
Proof.
  intros. pose proof (C69_interrupted_iff T V E n A g s rec mi get fmt (limit L)) as [H _].
  destruct (gparse_as_deep T V E n A g s rec mi get fmt 0) as [_ D]. specialize (D L (Nat.le_0_l _)).
  rewrite gparse_depths in D. cbn [fst Nat.add] in D. fold (parse_moments E n g s rec mi get fmt) in D.
  set (dep := fst (if rec then _ else _)) in *. cbv zeta in H.
  destruct (C69_all_or_nothing T V E n A g s rec mi get fmt (limit L)) as [X|X].
  - replace (Nat.leb dep L) with true; auto. symmetry. apply Nat.leb_le. apply D. apply Forall_forall. intros d Hd.
    destruct (In_nth_error _ _ Hd) as [k Hk]. destruct (Nat.le_gt_cases d L) as [|Hl]; auto. exfalso.
    assert (Y : snd (parse_disturbed (limit L) E n g s rec mi get fmt) = None).
    { apply H. exists k, d. split; auto. unfold limit. apply Nat.ltb_lt. exact Hl. }
    rewrite X in Y. discriminate.
  - rewrite X. replace (Nat.leb dep L) with false; auto. symmetry. apply Nat.leb_gt.
    apply H in X. destruct X as (k & d & Hk & Hd). unfold limit in Hd. apply Nat.ltb_lt in Hd.
    destruct (Nat.le_gt_cases dep L) as [Hl|]; auto. exfalso. apply D in Hl. rewrite Forall_forall in Hl.
    apply nth_error_In in Hk. specialize (Hl _ Hk). lia.
Qed.
Print Assumptions C69_recursion_limit.

(** So a limit that grows linearly with the input is never reached (C60). *)
Theorem C69_enough :
  forall T V (E : env T V) A (g : gram T V A),
  wf_env E -> wf g -> bounded_size E g -> bounded_depth E g ->
  exists k, forall s mi get fmt n, (0 <= mi)%Z ->
  snd (parse_disturbed (limit (k * (List.length s + 1))) E n g s false mi get fmt) = Some (parse E n g s false mi get fmt) /\
  snd (parse_disturbed (limit (k * (List.length s + 1) * (Z.to_nat mi + 2))) E n g s true mi get fmt) = Some (parse E n g s true mi get fmt).
Proof.
  intros T V E A g HE Hg Hs Hd. destruct (C60_linear T V E A g HE Hg Hs Hd) as [k1 H1].
  destruct (C60_recovery T V E A g HE Hg Hs Hd) as [k2 H2].
  exists (k1 + k2). intros s mi get fmt n Hmi. rewrite !C69_recursion_limit. split.
  - specialize (H1 s get fmt n). replace (Nat.leb _ _) with true; auto. symmetry. apply Nat.leb_le. nia.
  - specialize (H2 s mi get fmt n Hmi). replace (Nat.leb _ _) with true; auto. symmetry. apply Nat.leb_le.
    set (l := (List.length s + 1) * (Z.to_nat mi + 2)) in *. rewrite <- Nat.mul_assoc in *. fold l in H2 |- *. nia.
Qed.
Print Assumptions C69_enough.
(** ... and with left recursion every limit is exceeded. *)
Theorem C69_left_recursion : forall L x s rec mi get fmt n, L < n ->
  snd (parse_disturbed (limit L) (left_E x) n (GDelay 0 : ex_gram Z) s rec mi get fmt) = None.
Proof.
  intros L x s rec mi get fmt n Hn. rewrite C69_recursion_limit.
  destruct (C60_left_recursion_unbounded x s mi get fmt n) as [H1 H2].
  replace (Nat.leb _ L) with false; auto. symmetry. apply Nat.leb_gt. destruct rec; [rewrite H2|rewrite H1]; exact Hn.
Qed.
Print Assumptions C69_left_recursion.

(** A case: "(1)" has 56 moments; a limit of 14 is enough, one of 13 is exceeded at the
    22nd moment; and an interruption at the 31st one. *)
Definition ex_disturbed hits s := parse_disturbed hits ex_E 150 ex_top (ex_str s) false 5 scannerless_get_loc linecol_fmt.
Theorem C69_case :
  List.length (parse_moments ex_E 150 ex_top (ex_str "(1)") false 5 scannerless_get_loc linecol_fmt) = 56 /\
  option_map (omap (fun r => unwrap r false)) (snd (ex_disturbed (limit 14) "(1)")) = Some (Ret (Returns 1%Z)) /\
  ex_disturbed (limit 13) "(1)" = (21, None) /\
  ex_disturbed (fun k _ => Nat.eqb k 30) "(1)" = (30, None).
Proof. vm_compute. repeat split. Qed.
