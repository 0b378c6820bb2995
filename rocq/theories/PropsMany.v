(** C21 many, C22 sep_by and between, C23 chainl1 and chainr1, C24 then. *)
From Verif Require Export ManySpec PropsSingle.

Section Many.
Context {T : Type} {V : nat -> Type}.
Variable E : env T V.
Notation gram := (gram T V).
Implicit Types s : list T.

Lemma runs_at {A} (p : gram A) s i c r : runs E p s i c r ->
  exists n, forall m, n <= m -> fast E m p s i c = Ret r.
Proof. intros H. apply runs_lim in H. exact H. Qed.
Lemma raises_at {A} (p : gram A) s i c x : raises E p s i c x ->
  exists n, forall m, n <= m -> fast E m p s i c = Raise x.
Proof. intros H. apply raises_lim in H. exact H. Qed.

Lemma star_app {A} (p : gram A) s i c vs j c' v k c'' :
  star E p s i c vs j c' -> yields E p s j c' v k c'' true -> star E p s i c (vs ++ [v]) k c''.
Proof.
  intros H. revert v k c''. induction H as [i c|i c v0 j c' vs k c'' Hy Hs IH]; intros v k' c0 H.
  - econstructor; eauto. constructor.
  - simpl. econstructor; eauto.
Qed.

(** the loop of [many], started after the values [v0] were collected *)
Lemma many_loop {A} (p : gram A) s m : forall n b v0 i c r,
  many_fast (fast E m p) n b v0 s i c = Ret r ->
  exists vs j c' e, star E p s i c vs j c' /\ runs E p s j c' (SErr e) /\
    r = if er_con e then SErr e else SOk (Ok (v0 ++ vs) j c' (er_exp e) (b || nonempty vs)).
Proof.
  induction n as [|n IH]; intros b v0 i c r H; [discriminate|]. cbn [many_fast] in H.
  apply obind_ret in H as [[o|e] [Hp H]].
  - destruct (ok_con o) eqn:Ho; [|discriminate].
    apply IH in H as (vs & j & c' & e & Hs & He & ->).
    exists (ok_val o :: vs), j, c', e. split.
    { econstructor; eauto. exists m, o. auto. }
    split; [exact He|]. destruct (er_con e); [reflexivity|]. rewrite <- app_assoc. simpl. rewrite orb_true_r. reflexivity.
  - exists [], i, c, e. split; [constructor|]. split; [exists m; exact Hp|].
    rewrite app_nil_r. simpl. rewrite orb_false_r. destruct (er_con e); injection H as <-; reflexivity.
Qed.
Lemma many_loop_raise {A} (p : gram A) s m : forall n b v0 i c x,
  many_fast (fast E m p) n b v0 s i c = Raise x ->
  exists vs j c', star E p s i c vs j c' /\
    (raises E p s j c' x \/ x = ManyEmpty /\ exists v k c'', yields E p s j c' v k c'' false).
Proof.
  induction n as [|n IH]; intros b v0 i c x H; [discriminate|]. cbn [many_fast] in H.
  destruct (fast E m p s i c) as [[o|e]|y|] eqn:Hp; simpl in H; try discriminate.
  - destruct (ok_con o) eqn:Ho.
    + apply IH in H as (vs & j & c' & Hs & K).
      exists (ok_val o :: vs), j, c'. split; [|exact K]. econstructor; eauto. exists m, o. auto.
    + injection H as <-. exists [], i, c. split; [constructor|]. right. split; auto.
      exists (ok_val o), (ok_pos o), (ok_ctx o), m, o. auto.
  - destruct (er_con e); discriminate.
  - injection H as <-. exists [], i, c. split; [constructor|]. left. exists m. exact Hp.
Qed.
(** conversely, the loop follows a run of consuming successes *)
Lemma many_follow {A} (p : gram A) s i c vs j c' : star E p s i c vs j c' ->
  exists N, forall m n b v0, N <= m ->
    many_fast (fast E m p) (List.length vs + n) b v0 s i c =
    many_fast (fast E m p) n (b || nonempty vs) (v0 ++ vs) s j c'.
Proof.
  induction 1 as [i c|i c v j c' vs k c'' Hy Hs [N IH]].
  - exists 0. intros. simpl. rewrite orb_false_r, app_nil_r. reflexivity.
  - apply yields_runs in Hy as [e Hy]. apply runs_at in Hy as [M Hy].
    exists (Nat.max N M). intros m n b v0 Hm. simpl. rewrite Hy by lia. simpl.
    rewrite IH by lia. rewrite <- app_assoc. simpl. rewrite orb_true_r. reflexivity.
Qed.
Theorem C21_many_collects A (p : gram A) s i c :
  (forall r, runs E (GMany p) s i c r <->
     exists vs j c' e, star E p s i c vs j c' /\ runs E p s j c' (SErr e) /\
       r = if er_con e then SErr e else SOk (Ok vs j c' (er_exp e) (nonempty vs))) /\
  (forall x, raises E (GMany p) s i c x <->
     exists vs j c', star E p s i c vs j c' /\
       (raises E p s j c' x \/ x = ManyEmpty /\ exists v k c'', yields E p s j c' v k c'' false)).
Proof.
  split.
  - intros r. split.
    + intros [[|n] H]; [discriminate|]. cbn [fast] in H. apply many_loop in H. exact H.
    + intros (vs & j & c' & e & Hs & He & ->). apply many_follow in Hs as [N Hs]. apply runs_at in He as [M He].
      exists (S (List.length vs + S (N + M))). cbn [fast].
      rewrite Hs by lia. cbn [many_fast]. rewrite He by lia. simpl. destruct (er_con e); reflexivity.
  - intros x. split.
    + intros [[|n] H]; [discriminate|]. cbn [fast] in H. apply many_loop_raise in H. exact H.
    + intros (vs & j & c' & Hs & K). apply many_follow in Hs as [N Hs].
      destruct K as [K|[-> (v & k & c'' & K)]].
      * apply raises_at in K as [M K]. exists (S (List.length vs + S (N + M))). cbn [fast].
        rewrite Hs by lia. cbn [many_fast]. rewrite K by lia. reflexivity.
      * apply yields_runs in K as [e K]. apply runs_at in K as [M K]. exists (S (List.length vs + S (N + M))).
        cbn [fast]. rewrite Hs by lia. cbn [many_fast]. rewrite K by lia. reflexivity.
Qed.
(** the run is unique, so it is the longest one *)
Theorem C21_longest A (p : gram A) s i c vs j c' vs' j' c1 b :
  star E p s i c vs j c' -> fails E p s j c' b -> star E p s i c vs' j' c1 ->
  exists rest, vs = vs' ++ rest /\ star E p s j' c1 rest j c'.
Proof.
  intros H. revert vs' j' c1. induction H as [i c|i c v j c' vs k c'' Hy Hs IH]; intros vs' j' c1 Hf H'.
  - inversion H'; subst; [exists []; split; auto; constructor|].
    apply yields_runs in H as [e1 H]. apply fails_runs in Hf as (l & e2 & Hf).
    pose proof (runs_det _ _ _ _ _ _ _ H Hf). discriminate.
  - inversion H'; subst.
    + exists (v :: vs). split; auto. econstructor; eauto.
    + apply yields_runs in Hy as [e1 Hy]. apply yields_runs in H as [e2 H].
      pose proof (runs_det _ _ _ _ _ _ _ Hy H) as K. injection K as <- <- <- _.
      destruct (IH _ _ _ Hf H0) as (rest & -> & Hr). exists rest. split; auto.
Qed.

(** ** sequencing *)
Theorem C24_sequence A B C (p : gram A) (q : gram B) (merge : A -> B -> C) s i c :
  (forall r, runs E (GSeq p q merge) s i c r <->
     (exists e, runs E p s i c (SErr e) /\ r = SErr e) \/
     (exists o rq, runs E p s i c (SOk o) /\ runs E q s (ok_pos o) (ok_ctx o) rq /\ r = sequel merge o rq)) /\
  (forall x, raises E (GSeq p q merge) s i c x <->
     raises E p s i c x \/
     (exists o, runs E p s i c (SOk o) /\ raises E q s (ok_pos o) (ok_ctx o) x)).
Proof.
  assert (F : forall oa rb, (rc <- sres_fmap (fun vb => Ret (merge (ok_val oa) vb)) rb ;;
     Ret (sres_prepend (ok_exp oa) (ok_con oa) rc)) = Ret (sequel merge (oa : okr T A) rb)).
  { intros oa [o|e]; simpl; f_equal; f_equal.
    - unfold ok_prepend. destruct o as [v j c1 e []]; simpl; [rewrite orb_true_r|rewrite orb_false_r]; reflexivity.
    - unfold er_prepend. destruct e as [l e []]; simpl; [rewrite orb_true_r|rewrite orb_false_r]; reflexivity. }
  split.
  - intros r. split.
    + intros [[|n] H]; [discriminate|]. cbn [fast] in H. unfold seq_fast in H.
      apply obind_ret in H as [[o|e] [Hp H]].
      * apply obind_ret in H as [rb [Hq H]]. rewrite F in H. injection H as <-.
        right. exists o, rb. split; [exists n; auto|]. split; [exists n; auto|auto].
      * injection H as <-. left. exists e. split; [exists n; auto|auto].
    + intros [(e & Hp & ->)|(o & rq & Hp & Hq & ->)].
      * destruct Hp as [n Hp]. exists (S n). cbn [fast]. unfold seq_fast. rewrite Hp. reflexivity.
      * apply runs_at in Hp as [N Hp]. apply runs_at in Hq as [M Hq]. exists (S (N + M)). cbn [fast]. unfold seq_fast.
        rewrite Hp by lia. cbn [obind]. rewrite Hq by lia. cbn [obind]. rewrite F. reflexivity.
  - intros x. split.
    + intros [[|n] H]; [discriminate|]. cbn [fast] in H. unfold seq_fast in H.
      destruct (fast E n p s i c) as [[o|e]|y|] eqn:Hp; cbn [obind] in H; try discriminate.
      * right. exists o. split; [exists n; auto|].
        destruct (fast E n q s (ok_pos o) (ok_ctx o)) as [rb|y|] eqn:Hq; cbn [obind] in H; try discriminate.
        -- rewrite F in H. discriminate.
        -- exists n. congruence.
      * left. exists n. congruence.
    + intros [[n H]|(o & Hp & Hq)].
      * exists (S n). cbn [fast]. unfold seq_fast. rewrite H. reflexivity.
      * apply runs_at in Hp as [N Hp]. apply raises_at in Hq as [M Hq]. exists (S (N + M)). cbn [fast]. unfold seq_fast.
        rewrite Hp by lia. cbn [obind]. rewrite Hq by lia. reflexivity.
Qed.

Lemma seq_yields {A B C} (p : gram A) (q : gram B) (f : A -> B -> C) s i c w j c' b :
  yields E (GSeq p q f) s i c w j c' b <->
  exists x k c1 b1 v b2, yields E p s i c x k c1 b1 /\ yields E q s k c1 v j c' b2 /\ w = f x v /\ b = b1 || b2.
Proof.
  rewrite yields_runs. destruct (C24_sequence _ _ _ p q f s i c) as [H _]. split.
  - intros [e He]. apply H in He as [(e' & _ & K)|(o & rq & Hp & Hq & K)]; [discriminate|].
    destruct rq as [o'|e']; [|discriminate]. injection K as -> -> -> _ ->.
    exists (ok_val o), (ok_pos o), (ok_ctx o), (ok_con o), (ok_val o'), (ok_con o').
    split; [destruct Hp as [n Hp]; exists n, o; auto|]. split; [destruct Hq as [n Hq]; exists n, o'; auto|auto].
  - intros (x & k & c1 & b1 & v & b2 & (n & o & Hp & <- & <- & <- & <-) & (m & o' & Hq & <- & <- & <- & <-) & -> & ->).
    eexists. apply H. right. exists o, (SOk o'). split; [exists n; auto|]. split; [exists m; auto|]. reflexivity.
Qed.
Lemma seq_fails {A B C} (p : gram A) (q : gram B) (f : A -> B -> C) s i c b :
  fails E (GSeq p q f) s i c b <-> round_fails E p q s i c b.
Proof.
  unfold round_fails. destruct (C24_sequence _ _ _ p q f s i c) as [H _]. split.
  - intros K. apply fails_runs in K as (l & e & K).
    apply H in K as [(e' & Hp & K)|(o & rq & Hp & Hq & K)].
    + left. apply fails_runs. exists l, e. congruence.
    + right. destruct rq as [o'|e']; [discriminate|]. injection K as -> _ ->.
      exists (ok_val o), (ok_pos o), (ok_ctx o), (ok_con o), (er_con e').
      split; [destruct Hp as [n Hp]; exists n, o; auto|]. split; [destruct Hq as [n Hq]; exists n, e'; auto|auto].
  - intros [K|(x & k & c1 & b1 & b2 & (n & o & Hp & <- & <- & <- & <-) & (m & e & Hq & <-) & ->)].
    + apply fails_runs in K as (l & e & K). apply fails_runs. exists l, e. apply H. left. eauto.
    + apply fails_runs. do 2 eexists. apply H. right. exists o, (SErr e).
      split; [exists n; auto|]. split; [exists m; auto|]. reflexivity.
Qed.
Lemma seq_raises {A B C} (p : gram A) (q : gram B) (f : A -> B -> C) s i c y :
  raises E (GSeq p q f) s i c y <->
  raises E p s i c y \/ exists x k c1 b1, yields E p s i c x k c1 b1 /\ raises E q s k c1 y.
Proof.
  destruct (C24_sequence _ _ _ p q f s i c) as [_ H]. rewrite H. split.
  - intros [K|(o & [n Hp] & Hq)]; [auto|right]. exists (ok_val o), (ok_pos o), (ok_ctx o), (ok_con o).
    split; [exists n, o; auto|auto].
  - intros [K|(x & k & c1 & b1 & (n & o & Hp & <- & <- & <- & <-) & Hq)]; [auto|right].
    exists o. split; [exists n; auto|auto].
Qed.

(** rounds are runs of [sep + p] *)
Lemma star_rounds {X A W} (sep : gram X) (p : gram A) (f : X -> A -> W) s i c ws j c' :
  star E (GSeq sep p f) s i c ws j c' <->
  exists l, rounds E sep p s i c l j c' /\ ws = map (fun xv => f (fst xv) (snd xv)) l.
Proof.
  split.
  - induction 1 as [i c|i c v j c' vs k c'' Hy Hs (l & Hl & ->)].
    + exists []. split; auto. constructor.
    + apply seq_yields in Hy as (x & k' & c1 & b1 & v' & b2 & Hx & Hv & -> & Hb).
      exists ((x, v') :: l). split; auto. econstructor; eauto.
  - intros (l & H & ->). induction H as [|i c x k c1 b1 v j c2 b2 l e c3 Hx Hv Hb Hr IH]; [constructor|].
    simpl. econstructor; [|exact IH]. apply seq_yields. do 6 eexists. split; [exact Hx|]. split; [exact Hv|]. auto.
Qed.
Lemma round_empty {X A W} (sep : gram X) (p : gram A) (f : X -> A -> W) s i c y :
  raises E (GSeq sep p f) s i c y \/
  (y = ManyEmpty /\ exists v k c'', yields E (GSeq sep p f) s i c v k c'' false) <->
  round_raises E sep p s i c y.
Proof.
  unfold round_raises. rewrite seq_raises. split.
  - intros [[K|K]|[-> (w & k & c'' & K)]]; [auto|auto|right; right].
    apply seq_yields in K as (x & k' & c1 & b1 & v & b2 & Hx & Hv & _ & Hb).
    symmetry in Hb. apply orb_false_iff in Hb as [-> ->]. split; auto. do 6 eexists. split; [exact Hx|exact Hv].
  - intros [K|[K|[-> (x & k & c1 & v & j & c2 & Hx & Hv)]]]; [auto|auto|right]. split; auto.
    do 3 eexists. apply seq_yields. do 6 eexists. split; [exact Hx|]. split; [exact Hv|]. auto.
Qed.

(** outcomes of [fmap] and [maybe] and [many] *)
Lemma fmap_yields {A B} (p : gram A) (f : A -> out B) s i c w j c' b :
  yields E (GFmap p f) s i c w j c' b <-> exists v, yields E p s i c v j c' b /\ f v = Ret w.
Proof.
  destruct (runs_one E p (GFmap p f) (sres_fmap f) s i c) as [H _]; [reflexivity|]. rewrite yields_runs. split.
  - intros [e K]. apply H in K as ([o|e'] & Hp & K); [|discriminate]. cbn [sres_fmap] in K. unfold ok_fmap in K.
    destruct (f (ok_val o)) as [w'| |] eqn:Hf; simpl in K; try discriminate.
    injection K as -> <- <- _ <-. exists (ok_val o). split; [destruct Hp as [n Hp]; exists n, o; auto|congruence].
  - intros (v & (n & o & Hp & <- & <- & <- & <-) & Hf). eexists. apply H. exists (SOk o). split; [exists n; auto|].
    simpl. unfold ok_fmap. rewrite Hf. reflexivity.
Qed.
Lemma fmap_fails {A B} (p : gram A) (f : A -> out B) s i c b :
  fails E (GFmap p f) s i c b <-> fails E p s i c b.
Proof.
  destruct (runs_one E p (GFmap p f) (sres_fmap f) s i c) as [H _]; [reflexivity|]. rewrite !fails_runs. split.
  - intros (l & e & K). apply H in K as ([o|e'] & Hp & K); simpl in K.
    + unfold ok_fmap in K. destruct (f (ok_val o)); discriminate.
    + exists l, e. congruence.
  - intros (l & e & K). exists l, e. apply H. exists (SErr (Err l e b)). auto.
Qed.
Lemma fmap_raises {A B} (p : gram A) (f : A -> out B) s i c y :
  raises E (GFmap p f) s i c y <-> raises E p s i c y \/ exists v j c' b, yields E p s i c v j c' b /\ f v = Raise y.
Proof.
  destruct (runs_one E p (GFmap p f) (sres_fmap f) s i c) as [_ H]; [reflexivity|]. rewrite H. split.
  - intros [K|([o|e] & Hp & K)]; [auto| |discriminate]. right. cbn [sres_fmap] in K. unfold ok_fmap in K.
    exists (ok_val o), (ok_pos o), (ok_ctx o), (ok_con o). split; [destruct Hp as [n Hp]; exists n, o; auto|].
    destruct (f (ok_val o)); simpl in K; congruence.
  - intros [K|(v & j & c' & b & (n & o & Hp & <- & <- & <- & <-) & Hf)]; [auto|right]. exists (SOk o).
    split; [exists n; auto|]. simpl. unfold ok_fmap. rewrite Hf. reflexivity.
Qed.
Definition maybe_h {A} (i : nat) (c : ctx T) (r : sres T A) : out (sres T (option A)) :=
  match r with
    | SOk _ => sres_fmap (fun v => Ret (Some v)) r
    | SErr e => if er_con e then Ret (SErr e) else Ret (SOk (Ok None i c (er_exp e) false))
  end.
Lemma maybe_yields {A} (p : gram A) s i c w j c' b :
  yields E (GMaybe p) s i c w j c' b <->
  (exists v, yields E p s i c v j c' b /\ w = Some v) \/
  (fails E p s i c false /\ w = None /\ j = i /\ c' = c /\ b = false).
Proof.
  destruct (runs_one E p (GMaybe p) (maybe_h i c) s i c) as [H _]; [reflexivity|]. rewrite yields_runs. split.
  - intros [e K]. apply H in K as ([o|e'] & Hp & K); simpl in K.
    + injection K as <- <- <- _ <-. left. exists (ok_val o). split; auto. destruct Hp as [n Hp]; exists n, o; auto.
    + destruct (er_con e') eqn:He; [discriminate|]. injection K as <- <- <- _ <-. right. split; auto.
      destruct Hp as [n Hp]; exists n, e'; auto.
  - intros [(v & (n & o & Hp & <- & <- & <- & <-) & ->)|((n & e & Hp & He) & -> & -> & -> & ->)].
    + eexists. apply H. exists (SOk o). split; [exists n; auto|]. reflexivity.
    + eexists. apply H. exists (SErr e). split; [exists n; auto|]. simpl. rewrite He. reflexivity.
Qed.
Lemma maybe_fails {A} (p : gram A) s i c b :
  fails E (GMaybe p) s i c b <-> fails E p s i c true /\ b = true.
Proof.
  destruct (runs_one E p (GMaybe p) (maybe_h i c) s i c) as [H _]; [reflexivity|]. rewrite !fails_runs. split.
  - intros (l & e & K). apply H in K as ([o|e'] & Hp & K); simpl in K; [discriminate|].
    destruct (er_con e') eqn:He; [|discriminate]. injection K as ->. simpl in He. subst b. eauto.
  - intros [(l & e & K) ->]. exists l, e. apply H. exists (SErr (Err l e true)). auto.
Qed.
Lemma maybe_raises {A} (p : gram A) s i c y : raises E (GMaybe p) s i c y <-> raises E p s i c y.
Proof.
  destruct (runs_one E p (GMaybe p) (maybe_h i c) s i c) as [_ H]; [reflexivity|]. rewrite H. split; [|auto].
  intros [K|([o|e] & Hp & K)]; [auto|discriminate|]. simpl in K. destruct (er_con e); discriminate.
Qed.
Lemma many_yields {A} (p : gram A) s i c ws j c' b :
  yields E (GMany p) s i c ws j c' b <->
  star E p s i c ws j c' /\ fails E p s j c' false /\ b = nonempty ws.
Proof.
  destruct (C21_many_collects A p s i c) as [H _]. rewrite yields_runs. split.
  - intros [e K]. apply H in K as (vs & j' & c1 & e' & Hs & He & K).
    destruct (er_con e') eqn:Hc; [discriminate|]. injection K as -> -> -> _ ->. split; auto. split; auto.
    destruct He as [n He]; exists n, e'; auto.
  - intros (Hs & (n & e & Hf & He) & ->). eexists. apply H. exists ws, j, c', e. split; auto.
    split; [exists n; auto|]. rewrite He. reflexivity.
Qed.
Lemma many_fails {A} (p : gram A) s i c b :
  fails E (GMany p) s i c b <-> b = true /\ exists ws j c', star E p s i c ws j c' /\ fails E p s j c' true.
Proof.
  destruct (C21_many_collects A p s i c) as [H _]. rewrite fails_runs. split.
  - intros (l & e & K). apply H in K as (vs & j' & c1 & e' & Hs & He & K).
    destruct (er_con e') eqn:Hc; [|discriminate]. injection K as <-. simpl in Hc. split; auto.
    exists vs, j', c1. split; auto. apply fails_runs. exists l, e. congruence.
  - intros [-> (ws & j & c' & Hs & Hf)]. apply fails_runs in Hf as (l & e & Hf). exists l, e. apply H.
    exists ws, j, c', (Err l e true). auto.
Qed.

(** ** C22 *)
(** [p.sep_by(sep)] succeeds: nothing, if [p] fails at once without consuming;
    else the values of [p], (sep, p)* *)
Theorem C22_sep_by_yields A X (p : gram A) (sep : gram X) s i c vs j c' b :
  yields E (sep_by p sep) s i c vs j c' b <->
  (fails E p s i c false /\ vs = [] /\ j = i /\ c' = c /\ b = false) \/
  (exists v k c1 b1 l, yields E p s i c v k c1 b1 /\ rounds E sep p s k c1 l j c' /\
     round_fails E sep p s j c' false /\ vs = v :: map snd l /\ b = b1 || nonempty l).
Proof.
  unfold sep_by. rewrite fmap_yields. split.
  - intros (w & K & Hw). apply maybe_yields in K as [([v l] & K & ->)|(K & -> & -> & -> & ->)].
    + right. unfold seq in K. apply seq_yields in K as (x & k & c1 & b1 & ws & b2 & Hx & Hm & [= -> ->] & ->).
      apply many_yields in Hm as (Hs & Hf & ->). unfold seqr in Hs. apply star_rounds in Hs as (l' & Hl & ->).
      injection Hw as <-. exists x, k, c1, b1, l'. split; auto. split; auto.
      split; [apply seq_fails in Hf; auto|]. split; [reflexivity|]. destruct l'; reflexivity.
    + left. injection Hw as <-. split; [|auto]. unfold seq in K. apply seq_fails in K as [K|(x & k & c1 & b1 & b2 & Hx & Hf & Hb)]; auto.
      apply many_fails in Hf as [-> _]. rewrite orb_true_r in Hb. discriminate.
  - intros [(Hf & -> & -> & -> & ->)|(v & k & c1 & b1 & l & Hx & Hl & Hf & -> & ->)].
    + exists None. split; [|reflexivity]. apply maybe_yields. right. split; [|auto]. apply seq_fails. left. auto.
    + exists (Some (v, map snd l)). split; [|reflexivity]. apply maybe_yields. left.
      exists (v, map snd l). split; auto. apply seq_yields. exists v, k, c1, b1, (map snd l), (nonempty l).
      split; [exact Hx|]. split; [|auto]. apply many_yields. split.
      * apply star_rounds. exists l. split; auto. 
      * split; [apply seq_fails; exact Hf|]. destruct l; reflexivity.
Qed.
(** it fails, always committed: [p] fails after consuming, or a later round does;
    in particular after a consumed separator not followed by [p] *)
Theorem C22_sep_by_fails A X (p : gram A) (sep : gram X) s i c b :
  fails E (sep_by p sep) s i c b <->
  b = true /\
  (fails E p s i c true \/
   exists v k c1 b1 l j c', yields E p s i c v k c1 b1 /\ rounds E sep p s k c1 l j c' /\
     round_fails E sep p s j c' true).
Proof.
  unfold sep_by. rewrite fmap_fails, maybe_fails. unfold seq. rewrite seq_fails. unfold round_fails at 1. split.
  - intros [[K|(x & k & c1 & b1 & b2 & Hx & Hm & Hb)] ->]; (split; [reflexivity|]); [auto|right].
    apply many_fails in Hm as [-> (ws & j & c' & Hs & Hf)]. unfold seqr in Hs. apply star_rounds in Hs as (l & Hl & ->).
    exists x, k, c1, b1, l, j, c'. split; auto. split; auto. apply seq_fails in Hf. exact Hf.
  - intros [-> [K|(v & k & c1 & b1 & l & j & c' & Hx & Hl & Hf)]]; (split; [|reflexivity]); [auto|right].
    exists v, k, c1, b1, true. split; auto. split; [|rewrite orb_true_r; reflexivity].
    apply many_fails. split; auto. do 3 eexists. split; [apply star_rounds; exists l; split; [exact Hl|reflexivity]|].
    apply seq_fails. exact Hf.
Qed.
Theorem C22_sep_by_raises A X (p : gram A) (sep : gram X) s i c y :
  raises E (sep_by p sep) s i c y <->
  raises E p s i c y \/
  exists v k c1 b1 l j c', yields E p s i c v k c1 b1 /\ rounds E sep p s k c1 l j c' /\
    round_raises E sep p s j c' y.
Proof.
  unfold sep_by. rewrite fmap_raises, maybe_raises. unfold seq. rewrite seq_raises.
  split.
  - intros [[K|(x & k & c1 & b1 & Hx & K)]|(v & j & c' & b & _ & K)]; [auto|right|discriminate].
    apply (C21_many_collects _ (seqr sep p) s k c1) in K as (vs & j & c' & Hs & K).
    unfold seqr in Hs. apply star_rounds in Hs as (l & Hl & ->). exists x, k, c1, b1, l, j, c'.
    split; auto. split; auto. apply (round_empty sep p (fun _ r => r)). exact K.
  - intros [K|(v & k & c1 & b1 & l & j & c' & Hx & Hl & K)]; [auto|left; right].
    exists v, k, c1, b1. split; auto. apply (C21_many_collects _ (seqr sep p) s k c1).
    do 3 eexists. split; [apply star_rounds; exists l; split; [exact Hl|reflexivity]|].
    apply (round_empty sep p (fun _ r => r)) in K. exact K.
Qed.
Theorem C22_between A B C (o : gram B) (cl : gram C) (p : gram A) s i c :
  (forall v j c' b, yields E (between o cl p) s i c v j c' b <->
     exists x k1 c1 b1 k2 c2 b2 y b3, yields E o s i c x k1 c1 b1 /\ yields E p s k1 c1 v k2 c2 b2 /\
       yields E cl s k2 c2 y j c' b3 /\ b = b1 || (b2 || b3)) /\
  (forall b, fails E (between o cl p) s i c b <->
     fails E o s i c b \/
     exists x k1 c1 b1, yields E o s i c x k1 c1 b1 /\
       ((exists b2, fails E p s k1 c1 b2 /\ b = b1 || b2) \/
        exists v k2 c2 b2 b3, yields E p s k1 c1 v k2 c2 b2 /\ fails E cl s k2 c2 b3 /\ b = b1 || (b2 || b3))).
Proof.
  unfold between, seqr, seql. split.
  - intros v j c' b. rewrite seq_yields. split.
    + intros (x & k1 & c1 & b1 & v' & b4 & Hx & K & -> & ->).
      apply seq_yields in K as (v & k2 & c2 & b2 & y & b3 & Hv & Hy & -> & ->).
      do 9 eexists. split; [exact Hx|]. split; [exact Hv|]. split; [exact Hy|]. reflexivity.
    + intros (x & k1 & c1 & b1 & k2 & c2 & b2 & y & b3 & Hx & Hv & Hy & ->).
      do 6 eexists. split; [exact Hx|]. split; [|auto]. apply seq_yields. do 6 eexists. split; [exact Hv|]. split; [exact Hy|]. auto.
  - intros b. rewrite seq_fails. unfold round_fails. split.
    + intros [K|(x & k1 & c1 & b1 & b4 & Hx & K & ->)]; [auto|right]. exists x, k1, c1, b1. split; auto.
      apply seq_fails in K as [K|(v & k2 & c2 & b2 & b3 & Hv & Hf & ->)]; [left; eauto|right].
      exists v, k2, c2, b2, b3. auto.
    + intros [K|(x & k1 & c1 & b1 & Hx & [(b2 & K & ->)|(v & k2 & c2 & b2 & b3 & Hv & Hf & ->)])]; [auto|right|right].
      * exists x, k1, c1, b1, b2. split; auto. split; auto. apply seq_fails. left. auto.
      * exists x, k1, c1, b1, (b2 || b3). split; auto. split; auto. apply seq_fails. right. do 5 eexists. eauto.
Qed.

(** ** C23 *)
Lemma eval_left {A} (l : list ((A -> A -> out A) * A)) : forall t,
  eval (fold_left (fun t fb => Node (fst fb) t (Leaf (snd fb))) l t) = (x <- eval t ;; chainl1_loop x l).
Proof.
  induction l as [|[f b] l IH]; intros t; simpl.
  - destruct (eval t); reflexivity.
  - rewrite IH. simpl. destruct (eval t); reflexivity.
Qed.
Lemma chainr1_push_acc {A} (l : list ((A -> A -> out A) * A)) : forall a acc,
  chainr1_push a l acc = (fst (chainr1_push a l []), acc ++ snd (chainr1_push a l [])).
Proof.
  induction l as [|[f b] l IH]; intros a acc; simpl; [rewrite app_nil_r; reflexivity|].
  rewrite IH, (IH b [(a, f)]). simpl. rewrite <- app_assoc. reflexivity.
Qed.
Lemma chainr1_pop_app {A} (l l' : list (A * (A -> A -> out A))) : forall a,
  chainr1_pop a (l ++ l') = (x <- chainr1_pop a l ;; chainr1_pop x l').
Proof.
  induction l as [|[b f] l IH]; intros a; simpl; auto. destruct (f b a); simpl; auto.
Qed.
(** the values and the order of the calls *)
Theorem C23_chainl1_nesting A (a : A) l : chainl1_reducer (a, l) = eval (left_tree a l).
Proof. unfold left_tree. rewrite eval_left. reflexivity. Qed.
Theorem C23_chainr1_nesting A (a : A) l : chainr1_reducer (a, l) = eval (right_tree a l).
Proof.
  unfold chainr1_reducer. simpl. revert a. induction l as [|[f b] l IH]; intros a; [reflexivity|].
  simpl. rewrite chainr1_push_acc. specialize (IH b). destruct (chainr1_push b l []) as [r ra]. simpl in *.
  rewrite chainr1_pop_app, IH. destruct (eval (right_tree b l)); simpl; auto.
  destruct (f a a0); reflexivity.
Qed.

Section Chain.
Context {A : Type} (arg : gram A) (op : gram (A -> A -> out A)).
Variable red : A * list ((A -> A -> out A) * A) -> out A.
Lemma chain_yields s i c v j c' b :
  yields E (GFmap (seq arg (GMany (seq op arg))) red) s i c v j c' b <->
  exists a k c1 b1 l, yields E arg s i c a k c1 b1 /\ rounds E op arg s k c1 l j c' /\
    round_fails E op arg s j c' false /\ red (a, l) = Ret v /\ b = b1 || nonempty l.
Proof.
  rewrite fmap_yields. split.
  - intros (w & K & Hw). unfold seq in K. apply seq_yields in K as (x & k & c1 & b1 & ws & b2 & Hx & Hm & -> & ->).
    apply many_yields in Hm as (Hs & Hf & ->). apply star_rounds in Hs as (l' & Hl & ->).
    assert (Hid : map (fun xv => (fst xv, snd xv)) l' = l') by (clear; induction l' as [|[]]; simpl; congruence).
    rewrite Hid in *. exists x, k, c1, b1, l'. split; auto. split; auto.
    split; [apply seq_fails in Hf; auto|]. auto.
  - intros (a & k & c1 & b1 & l & Hx & Hl & Hf & Hr & ->). exists (a, l). split; auto.
    unfold seq. apply seq_yields. exists a, k, c1, b1, l, (nonempty l).
    split; [exact Hx|]. split; [|auto]. apply many_yields. split.
    + apply star_rounds. exists l. split; auto. clear. induction l as [|[]]; simpl; congruence.
    + split; [apply seq_fails; exact Hf|reflexivity].
Qed.
Lemma chain_fails s i c b :
  fails E (GFmap (seq arg (GMany (seq op arg))) red) s i c b <->
  fails E arg s i c b \/
  b = true /\ exists a k c1 b1 l j c', yields E arg s i c a k c1 b1 /\ rounds E op arg s k c1 l j c' /\
    round_fails E op arg s j c' true.
Proof.
  rewrite fmap_fails. unfold seq at 1. rewrite seq_fails. unfold round_fails at 1. split.
  - intros [K|(x & k & c1 & b1 & b2 & Hx & Hm & ->)]; [auto|right].
    apply many_fails in Hm as [-> (ws & j & c' & Hs & Hf)]. unfold seq in Hs. apply star_rounds in Hs as (l & Hl & ->).
    split; [apply orb_true_r|]. exists x, k, c1, b1, l, j, c'. split; auto. split; auto. apply seq_fails in Hf. exact Hf.
  - intros [K|[-> (v & k & c1 & b1 & l & j & c' & Hx & Hl & Hf)]]; [auto|right].
    exists v, k, c1, b1, true. split; auto. split; [|rewrite orb_true_r; reflexivity].
    apply many_fails. split; auto. do 3 eexists. split; [apply star_rounds; exists l; split; [exact Hl|reflexivity]|].
    apply seq_fails. exact Hf.
Qed.
Lemma chain_raises s i c y :
  raises E (GFmap (seq arg (GMany (seq op arg))) red) s i c y <->
  raises E arg s i c y \/
  (exists a k c1 b1 l j c', yields E arg s i c a k c1 b1 /\ rounds E op arg s k c1 l j c' /\
    (round_raises E op arg s j c' y \/ round_fails E op arg s j c' false /\ red (a, l) = Raise y)).
Proof.
  rewrite fmap_raises. split.
  - intros [K|(w & j & c' & b & K & Hr)].
    + unfold seq in K at 1. apply seq_raises in K as [K|(x & k & c1 & b1 & Hx & K)]; [auto|right].
      apply (C21_many_collects _ (seq op arg) s k c1) in K as (vs & j & c' & Hs & K).
      unfold seq in Hs. apply star_rounds in Hs as (l & Hl & ->). exists x, k, c1, b1, l, j, c'.
      split; auto. split; auto. left. apply (round_empty op arg (fun l r => (l, r))). exact K.
    + right. unfold seq in K. apply seq_yields in K as (x & k & c1 & b1 & ws & b2 & Hx & Hm & -> & ->).
      apply many_yields in Hm as (Hs & Hf & ->). apply star_rounds in Hs as (l' & Hl & ->).
      assert (Hid : map (fun xv => (fst xv, snd xv)) l' = l') by (clear; induction l' as [|[]]; simpl; congruence).
      rewrite Hid in *. exists x, k, c1, b1, l', j, c'. split; auto. split; auto. right.
      split; [apply seq_fails in Hf; auto|auto].
  - intros [K|(v & k & c1 & b1 & l & j & c' & Hx & Hl & [K|[Hf Hr]])].
    + left. apply seq_raises. auto.
    + left. apply seq_raises. right. exists v, k, c1, b1. split; auto.
      apply (C21_many_collects _ (seq op arg) s k c1).
      do 3 eexists. split; [apply star_rounds; exists l; split; [exact Hl|reflexivity]|].
      apply (round_empty op arg (fun l r => (l, r))) in K. exact K.
    + right. exists (v, l), j, c', (b1 || nonempty l). split; auto. apply seq_yields.
      exists v, k, c1, b1, l, (nonempty l).
      split; [exact Hx|]. split; [|auto]. apply many_yields. split.
      * apply star_rounds. exists l. split; auto. clear. induction l as [|[]]; simpl; congruence.
      * split; [apply seq_fails; exact Hf|reflexivity].
Qed.
End Chain.

Theorem C23_chainl1 A (arg : gram A) (op : gram (A -> A -> out A)) s i c :
  (forall v j c' b, yields E (chainl1 arg op) s i c v j c' b <->
     exists a k c1 b1 l, yields E arg s i c a k c1 b1 /\ rounds E op arg s k c1 l j c' /\
       round_fails E op arg s j c' false /\ eval (left_tree a l) = Ret v /\ b = b1 || nonempty l) /\
  (forall b, fails E (chainl1 arg op) s i c b <->
     fails E arg s i c b \/
     b = true /\ exists a k c1 b1 l j c', yields E arg s i c a k c1 b1 /\ rounds E op arg s k c1 l j c' /\
       round_fails E op arg s j c' true) /\
  (forall y, raises E (chainl1 arg op) s i c y <->
     raises E arg s i c y \/
     exists a k c1 b1 l j c', yields E arg s i c a k c1 b1 /\ rounds E op arg s k c1 l j c' /\
       (round_raises E op arg s j c' y \/ round_fails E op arg s j c' false /\ eval (left_tree a l) = Raise y)).
Proof.
  split; [|split]; intros; unfold chainl1; rewrite ?chain_yields, ?chain_fails, ?chain_raises; [|reflexivity|];
    setoid_rewrite C23_chainl1_nesting; reflexivity.
Qed.
Theorem C23_chainr1 A (arg : gram A) (op : gram (A -> A -> out A)) s i c :
  (forall v j c' b, yields E (chainr1 arg op) s i c v j c' b <->
     exists a k c1 b1 l, yields E arg s i c a k c1 b1 /\ rounds E op arg s k c1 l j c' /\
       round_fails E op arg s j c' false /\ eval (right_tree a l) = Ret v /\ b = b1 || nonempty l) /\
  (forall b, fails E (chainr1 arg op) s i c b <->
     fails E arg s i c b \/
     b = true /\ exists a k c1 b1 l j c', yields E arg s i c a k c1 b1 /\ rounds E op arg s k c1 l j c' /\
       round_fails E op arg s j c' true) /\
  (forall y, raises E (chainr1 arg op) s i c y <->
     raises E arg s i c y \/
     exists a k c1 b1 l j c', yields E arg s i c a k c1 b1 /\ rounds E op arg s k c1 l j c' /\
       (round_raises E op arg s j c' y \/ round_fails E op arg s j c' false /\ eval (right_tree a l) = Raise y)).
Proof.
  split; [|split]; intros; unfold chainr1; rewrite ?chain_yields, ?chain_fails, ?chain_raises; [|reflexivity|];
    setoid_rewrite C23_chainr1_nesting; reflexivity.
Qed.

(** ** C24 *)
(** p1.then(p2)...then(pn), [ps] are p3, ..., pn *)
Definition then_all {A} (p1 p2 : gram A) (ps : list (gram A)) : gram (list A) :=
  fold_left thenS ps (then2 p1 p2).
Lemma in_order_nil_inv {A} s i c (vs : list A) j c' b :
  in_order E s [] i c vs j c' b -> vs = [] /\ j = i /\ c' = c /\ b = false.
Proof. inversion 1; auto. Qed.
Lemma in_order_cons_inv {A} s (p : gram A) ps i c vs j c' b :
  in_order E s (p :: ps) i c vs j c' b ->
  exists v k c1 b1 vs' b2, yields E p s i c v k c1 b1 /\ in_order E s ps k c1 vs' j c' b2 /\
    vs = v :: vs' /\ b = b1 || b2.
Proof. inversion 1; subst. do 6 eexists. eauto. Qed.
Lemma in_order_app {A} s (ps qs : list (gram A)) : forall i c vs j c' b,
  in_order E s (ps ++ qs) i c vs j c' b <->
  exists vs1 vs2 k c1 b1 b2, in_order E s ps i c vs1 k c1 b1 /\ in_order E s qs k c1 vs2 j c' b2 /\
    vs = vs1 ++ vs2 /\ b = b1 || b2.
Proof.
  induction ps as [|p ps IH]; intros i c vs j c' b; simpl.
  - split.
    + intros H. exists [], vs, i, c, false, b. split; [constructor|]. auto.
    + intros (vs1 & vs2 & k & c1 & b1 & b2 & H1 & H2 & -> & ->). apply in_order_nil_inv in H1 as (-> & -> & -> & ->). exact H2.
  - split.
    + intros H. apply in_order_cons_inv in H as (v & k & c1 & b1 & vs0 & b2 & Hv & H & -> & ->). apply IH in H as (vs1 & vs2 & k' & c1' & b1' & b2' & K1 & K2 & -> & ->).
      exists (v :: vs1), vs2, k', c1', (b1 || b1'), b2'. split; [econstructor; eauto|]. split; auto.
      split; auto. apply orb_assoc.
    + intros (vs1 & vs2 & k & c1 & b1 & b2 & H1 & H2 & -> & ->). apply in_order_cons_inv in H1 as (v & k' & c1' & b1' & vs0 & b2' & Hv & H & -> & ->). rewrite <- orb_assoc.
      simpl. econstructor; eauto. apply IH. do 6 eexists. split; [eauto|]. split; [eauto|]. auto.
Qed.
Theorem C24_then A (p1 p2 : gram A) ps s i c vs j c' b :
  yields E (then_all p1 p2 ps) s i c vs j c' b <-> in_order E s (p1 :: p2 :: ps) i c vs j c' b.
Proof.
  unfold then_all. revert vs j c' b. induction ps as [|q ps IH] using rev_ind; intros vs j c' b.
  - simpl. unfold then2. rewrite seq_yields. split.
    + intros (x & k & c1 & b1 & v & b2 & Hx & Hv & -> & ->). econstructor; eauto.
      rewrite <- (orb_false_r b2). econstructor; eauto. constructor.
    + intros H. apply in_order_cons_inv in H as (v & k & c1 & b1 & vs0 & b2 & Hv & H & -> & ->).
      apply in_order_cons_inv in H as (v' & k' & c1' & b1' & vs0' & b2' & Hv' & H & -> & ->).
      apply in_order_nil_inv in H as (-> & -> & -> & ->).
      do 6 eexists. split; [eauto|]. split; [eauto|]. rewrite orb_false_r. auto.
  - rewrite fold_left_app. cbn [fold_left]. unfold thenS at 1. rewrite seq_yields.
    change (p1 :: p2 :: ps ++ [q]) with ((p1 :: p2 :: ps) ++ [q]). rewrite in_order_app. split.
    + intros (x & k & c1 & b1 & v & b2 & Hx & Hv & -> & ->). apply IH in Hx.
      do 6 eexists. split; [exact Hx|]. split; [econstructor; [exact Hv|constructor]|]. rewrite orb_false_r. auto.
    + intros (vs1 & vs2 & k & c1 & b1 & b2 & H1 & H2 & -> & ->). apply IH in H1.
      apply in_order_cons_inv in H2 as (v' & k' & c1' & b1' & vs0' & b2' & Hv' & H & -> & ->).
      apply in_order_nil_inv in H as (-> & -> & -> & ->).
      do 6 eexists. split; [exact H1|]. split; [eauto|]. rewrite orb_false_r. auto.
Qed.
Theorem C24_then_length A (p1 p2 : gram A) ps s i c vs j c' b :
  yields E (then_all p1 p2 ps) s i c vs j c' b -> List.length vs = 2 + List.length ps.
Proof.
  rewrite C24_then. intros H. change (2 + List.length ps) with (List.length (p1 :: p2 :: ps)).
  induction H; simpl; auto.
Qed.
(** failure: some parser fails after the ones before it succeeded *)
Theorem C24_then_fails A (p1 p2 : gram A) ps s i c b :
  fails E (then_all p1 p2 ps) s i c b <->
  exists qs q rest vs k c1 b1 b2, p1 :: p2 :: ps = qs ++ q :: rest /\ in_order E s qs i c vs k c1 b1 /\
    fails E q s k c1 b2 /\ b = b1 || b2.
Proof.
  unfold then_all. revert b. induction ps as [|p ps IH] using rev_ind; intros b.
  - simpl. unfold then2. rewrite seq_fails. unfold round_fails. split.
    + intros [K|(x & k & c1 & b1 & b2 & Hx & K & ->)].
      * exists [], p1, [p2], [], i, c, false, b. split; auto. split; [constructor|]. auto.
      * exists [p1], p2, [], [x], k, c1, b1, b2. split; auto. split; [|auto].
        rewrite <- (orb_false_r b1). econstructor; eauto. constructor.
    + intros (qs & q & rest & vs & k & c1 & b1 & b2 & Hl & Ho & Hf & ->).
      destruct qs as [|q1 [|q2 [|q3 qs]]]; simpl in Hl; injection Hl; intros; subst; try discriminate.
      * apply in_order_nil_inv in Ho as (-> & -> & -> & ->). left. exact Hf.
      * apply in_order_cons_inv in Ho as (v' & k' & c1' & b1' & vs0' & b2' & Hv' & H & -> & ->).
        apply in_order_nil_inv in H as (-> & -> & -> & ->). right. rewrite orb_false_r. do 5 eexists. eauto.
  - rewrite fold_left_app. cbn [fold_left]. unfold thenS at 1. rewrite seq_fails. unfold round_fails. split.
    + intros [K|(x & k & c1 & b1 & b2 & Hx & K & ->)].
      * apply IH in K as (qs & q & rest & vs & k & c1 & b1 & b2 & Hl & Ho & Hf & ->).
        exists qs, q, (rest ++ [p]), vs, k, c1, b1, b2. split; [|auto].
        change (p1 :: p2 :: ps ++ [p]) with ((p1 :: p2 :: ps) ++ [p]). rewrite Hl, <- app_assoc. reflexivity.
      * apply C24_then in Hx. exists (p1 :: p2 :: ps), p, [], x, k, c1, b1, b2. auto.
    + intros (qs & q & rest & vs & k & c1 & b1 & b2 & Hl & Ho & Hf & ->).
      destruct rest as [|r rest _] using rev_ind.
      * change (p1 :: p2 :: ps ++ [p]) with ((p1 :: p2 :: ps) ++ [p]) in Hl.
        apply app_inj_tail in Hl as [<- <-]. right. apply C24_then in Ho. do 5 eexists. eauto.
      * left. apply IH. change (p1 :: p2 :: ps ++ [p]) with ((p1 :: p2 :: ps) ++ [p]) in Hl.
        rewrite app_comm_cons, app_assoc in Hl. apply app_inj_tail in Hl as [Hl <-].
        exists qs, q, rest, vs, k, c1, b1, b2. auto.
Qed.
(** in both modes, [p.then(q)] is [p + q] with the last value appended *)
Theorem C24_then_is_seq A (p : gram (list A)) (p1 q : gram A) :
  same E (thenS p q) (GFmap (seq p q) (fun v => Ret (fst v ++ [snd v]))) /\
  same E (then2 p1 q) (GFmap (seq p1 q) (fun v => Ret [fst v; snd v])).
Proof.
  split; [apply (seq_merge E _ _ _ _ p q (fun l r => (l, r)) (fun v => fst v ++ [snd v]))|
    apply (seq_merge E _ _ _ _ p1 q (fun l r => (l, r)) (fun v => [fst v; snd v]))].
Qed.
(** apply(fn) calls [fn] with the values *)
Theorem C24_apply A B (p1 p2 : gram A) ps (fn : list A -> out B) s i c w j c' b :
  yields E (GFmap (then_all p1 p2 ps) fn) s i c w j c' b <->
  exists vs, in_order E s (p1 :: p2 :: ps) i c vs j c' b /\ fn vs = Ret w.
Proof.
  rewrite fmap_yields. split; intros (v & H & K); exists v; split; auto; apply C24_then; auto.
Qed.
End Many.
Print Assumptions C21_many_collects.
Print Assumptions C21_longest.
Print Assumptions C22_sep_by_yields.
Print Assumptions C22_sep_by_fails.
Print Assumptions C22_sep_by_raises.
Print Assumptions C22_between.
Print Assumptions C23_chainl1_nesting.
Print Assumptions C23_chainr1_nesting.
Print Assumptions C23_chainl1.
Print Assumptions C23_chainr1.
Print Assumptions C24_sequence.
Print Assumptions C24_then.
Print Assumptions C24_then_length.
Print Assumptions C24_then_fails.
Print Assumptions C24_then_is_seq.
Print Assumptions C24_apply.

(** many: two values, then stop; committed failure; empty iteration *)
Example C21_case :
  let ab := seq (ex_sym "a") (ex_sym "b") in
  (exists o, ch_run (GMany ab) "ababc" = Ret (SOk o) /\ List.length (ok_val o) = 2 /\ ok_pos o = 4) /\
  ch_run (GMany ab) "abac" = Ret (SErr (Err (Loc 3 0 3) ["'b'"]%string true)) /\
  ch_run (GMany (GMaybe (ex_sym "a"))) "ab" = Raise ManyEmpty /\
  star ex_E ab (ex_str "abab") 0 law_c [(ex_ch "a", ex_ch "b")] 2 law_c.
Proof.
  split; [eexists; vm_compute; repeat split|]. split; [reflexivity|]. split; [reflexivity|].
  econstructor; [|constructor]. exists 60. eexists. vm_compute. repeat split.
Qed.
(** sep_by: no value, three values, a separator not followed by a value *)
Definition mn_list : ex_gram (list Z) := sep_by ex_digit (ex_sym ",").
Example C22_case :
  (exists o, ch_run mn_list "x" = Ret (SOk o) /\ ok_val o = []) /\
  (exists o, ch_run mn_list "1,2,3" = Ret (SOk o) /\ ok_val o = [1; 2; 3]%Z) /\
  (exists e, ch_run mn_list "1,x" = Ret (SErr e) /\ er_con e = true) /\
  rounds ex_E (ex_sym ",") ex_digit (ex_str "1,2") 1 law_c [(ex_ch ",", 2%Z)] 3 law_c /\
  round_fails ex_E (ex_sym ",") ex_digit (ex_str "1,2") 3 law_c false.
Proof.
  split; [eexists; vm_compute; repeat split|]. split; [eexists; vm_compute; repeat split|].
  split; [eexists; vm_compute; repeat split|]. split.
  - eapply rounds_cons with (k := 2) (j := 3) (b1 := true) (b2 := true) (c1 := law_c) (c2 := law_c); [..|constructor];
      auto; exists 60; eexists; vm_compute; repeat split.
  - left. exists 60. eexists. vm_compute. repeat split.
Qed.
(** 9-3-2: left (9-3)-2 = 4, right 9-(3-2) = 8 *)
Definition mn_minus : ex_gram (Z -> Z -> out Z) :=
  seqr (ex_sym "-") (GPure (fun x y => Ret (x - y)%Z)).
Example C23_case :
  (exists o, ch_run (chainl1 ex_digit mn_minus) "9-3-2" = Ret (SOk o) /\ ok_val o = 4%Z) /\
  (exists o, ch_run (chainr1 ex_digit mn_minus) "9-3-2" = Ret (SOk o) /\ ok_val o = 8%Z) /\
  let f := fun x y : Z => Ret (x - y)%Z in
  eval (left_tree 9%Z [(f, 3); (f, 2)]%Z) = Ret 4%Z /\ eval (right_tree 9%Z [(f, 3); (f, 2)]%Z) = Ret 8%Z /\
  left_tree 9%Z [(f, 3); (f, 2)]%Z = Node f (Node f (Leaf 9%Z) (Leaf 3%Z)) (Leaf 2%Z).
Proof.
  split; [eexists; vm_compute; repeat split|]. split; [eexists; vm_compute; repeat split|].
  split; [reflexivity|]. split; reflexivity.
Qed.
(** which of two raising operators is called first *)
Example C23_order :
  let f := fun x y : Z => @Raise Z (UserExn "f") in let g := fun x y : Z => @Raise Z (UserExn "g") in
  chainl1_reducer (1, [(f, 2); (g, 3)])%Z = Raise (UserExn "f") /\
  chainr1_reducer (1, [(f, 2); (g, 3)])%Z = Raise (UserExn "g").
Proof. split; reflexivity. Qed.
Example C24_case :
  exists o, ch_run (then_all ex_digit ex_digit [ex_digit; ex_digit]) "1234" = Ret (SOk o) /\
    ok_val o = [1; 2; 3; 4]%Z.
Proof. eexists; vm_compute; repeat split. Qed.
