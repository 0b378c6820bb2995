(** How much work parsing is: proofs. *)
From Verif Require Export Cost CostSpec Term.

(** ** The counter does not change the results *)
Section Erase.
Context {T : Type}.
Definition erases {A} (p : pcost T A) (q : pfast T A) : Prop := forall s pos c, snd (p s pos c) = q s pos c.
Lemma snd_bind {A B} (m : cm A) (f : A -> cm B) x g : snd m = x -> (forall a, snd (f a) = g a) ->
  snd (cbind m f) = obind x g.
Proof. intros <- H. unfold cbind. destruct (snd m); simpl; auto. Qed.
Lemma cbind_eq {A B} (m : cm A) (f : A -> cm B) : cbind m f =
  match snd m with Ret a => (fst m + fst (f a), snd (f a)) | Raise e => (fst m, Raise e) | NoFuel => (fst m, NoFuel) end.
Proof. reflexivity. Qed.
Lemma snd_bind_ret {A} (m : cm A) : snd (cbind m (fun a => cret (Ret a))) = snd m.
Proof. unfold cbind. destruct (snd m); reflexivity. Qed.
Lemma many_erases {A} (p : pcost T A) q : erases p q -> forall n b vs s pos c,
  snd (many_cost p n b vs s pos c) = many_fast q n b vs s pos c.
Proof.
  intros H. induction n as [|n IH]; intros b vs s pos c; [reflexivity|]. simpl.
  apply snd_bind; [apply H|]. intros [o|e]; [|destruct (er_con e); reflexivity].
  destruct (ok_con o); [apply IH|reflexivity].
Qed.
Context {V : nat -> Type}.
Variable E : env T V.
Theorem cfast_fast n : forall A (g : gram T V A), erases (cfast E n g) (fast E n g).
Proof.
  induction n as [|n IH]; intros A g s pos c; [reflexivity|].
  destruct g; try reflexivity; cbn [cfast fast tick snd].
  - unfold fmap_cost, fmap_fast. apply snd_bind; [apply IH|reflexivity].
  - unfold alt_cost, alt_fast. apply snd_bind; [apply IH|]. intros [o|e]; [reflexivity|].
    destruct (er_con e); [reflexivity|]. apply snd_bind; [apply IH|]. intros b.
    destruct (sres_con b); [reflexivity|]. destruct b; reflexivity.
  - unfold bind_cost, bind_fast. apply snd_bind; [apply IH|]. intros [o|e]; [|reflexivity].
    apply snd_bind; [apply IH|reflexivity].
  - unfold seq_cost, seq_fast. apply snd_bind; [apply IH|]. intros [o|e]; [|reflexivity].
    apply snd_bind; [apply IH|reflexivity].
  - unfold maybe_cost, maybe_fast. apply snd_bind; [apply IH|]. intros [o|e]; [reflexivity|].
    destruct (er_con e); reflexivity.
  - apply many_erases, IH.
  - unfold attempt_cost, attempt_fast. apply snd_bind; [apply IH|]. intros [o|e]; reflexivity.
  - unfold label_cost, label_fast. apply snd_bind; [apply IH|reflexivity].
  - apply IH.
  - apply IH.
  - apply IH.
  - unfold block_cost, block_fast. apply snd_bind; [apply IH|reflexivity].
  - unfold aligned_cost, aligned_fast. destruct (Z.eqb _ _); [apply IH|reflexivity].
  - unfold indented_cost, indented_fast. destruct (Z.eqb _ _); [|reflexivity]. apply snd_bind; [apply IH|reflexivity].
  - apply IH.
Qed.
End Erase.

(** ** Weights: as sizes, with [many] counted twice *)
Section Weight.
Context {T : Type} {V : nat -> Type}.
Notation gram := (gram T V).
Variable E : env T V.
Fixpoint weight_le {A} (g : gram A) (n : nat) : Prop :=
  match g with
  | GFmap p _ => exists a, weight_le p a /\ a + 1 <= n
  | GAlt p q => exists a b, weight_le p a /\ weight_le q b /\ a + b + 1 <= n
  | GBind p f => exists a b, weight_le p a /\ (forall v, weight_le (f v) b) /\ a + b + 1 <= n
  | GSeq p q _ => exists a b, weight_le p a /\ weight_le q b /\ a + b + 1 <= n
  | GMaybe p => exists a, weight_le p a /\ a + 1 <= n
  | GMany p => exists a, weight_le p a /\ 2 * a + 1 <= n
  | GAttempt p | GLabel p _ | GRecover p | GRecoverWith p _ _ | GRecoverWithFn p _ _
  | GBlock p | GAligned p | GIndented _ p => exists a, weight_le p a /\ a + 1 <= n
  | _ => 1 <= n
  end.
Lemma pow3_pos n : 1 <= 3 ^ n.
Proof. induction n; simpl; lia. Qed.
Lemma pow3_mono a b : a <= b -> 3 ^ a <= 3 ^ b.
Proof. intros. apply Nat.pow_le_mono_r; lia. Qed.
Lemma pow3_S a b : a + 1 <= b -> 2 * 3 ^ a + 1 <= 3 ^ b.
Proof. intros H. apply pow3_mono in H. rewrite Nat.add_1_r in H. simpl in H. pose proof (pow3_pos a). lia. Qed.
Lemma pow3_add a b n : a + b + 1 <= n -> 3 ^ a + 3 ^ b + 1 <= 3 ^ n.
Proof.
  intros H. apply pow3_mono in H. rewrite Nat.add_1_r in H. simpl in H.
  assert (3 ^ a <= 3 ^ (a + b)) by (apply pow3_mono; lia).
  assert (3 ^ b <= 3 ^ (a + b)) by (apply pow3_mono; lia).
  pose proof (pow3_pos (a + b)). lia.
Qed.
Lemma weight_of_size A (g : gram A) : forall n, size_le g n -> weight_le g (3 ^ n).
Proof.
  induction g; intros n Hn; simpl in *; try (apply pow3_pos);
  try (destruct Hn as (a & Ha & Hn); exists (3 ^ a); split; [auto|]; apply pow3_S in Hn; lia);
  (destruct Hn as (a & b & Ha & Hb & Hn); exists (3 ^ a), (3 ^ b); split; [auto|]; split; [auto|]; apply pow3_add; auto).
Qed.
Lemma weight_mono A (g : gram A) n m : n <= m -> weight_le g n -> weight_le g m.
Proof.
  intros H. destruct g; simpl; try lia;
  try (intros (a & Ha & Hn); exists a; split; auto; lia);
  (intros (a & b & Ha & Hb & Hn); exists a, b; split; auto; split; auto; lia).
Qed.
Lemma weight_pos A (g : gram A) n : weight_le g n -> 1 <= n.
Proof.
  destruct g; simpl; auto; try (intros (a & _ & Hn); lia); intros (a & b & _ & _ & Hn); lia.
Qed.
Lemma left_sub r A (g : gram A) B (h : gram B) : left_depth E r h -> (forall d, lcall E A g d -> lcall E B h d) -> left_depth E r g.
Proof. destruct r; intros H Hs d Hd; apply (H d (Hs d Hd)). Qed.
Lemma left_mono r : forall A (g : gram A), left_depth E r g -> left_depth E (S r) g.
Proof.
  induction r as [|r IH]; intros A g H d Hd; [destruct (H d Hd)|]. apply IH, (H d Hd).
Qed.
Lemma left_le r r' A (g : gram A) : r <= r' -> left_depth E r g -> left_depth E r' g.
Proof. induction 1; auto. intros. apply left_mono. auto. Qed.
End Weight.

Section Bound.
Context {T : Type} {V : nat -> Type}.
Notation gram := (gram T V).
Variable E : env T V.
Variable s : list T.
Notation len := (List.length s).
Hypothesis HE : wf_env E.
Variables M R : nat.
Hypothesis HM : forall d, weight_le (E d) M.
Hypothesis HR : forall d, left_depth E R (E d).
Hypothesis HA : forall d, no_attempt (E d).

(** any parser that uses these Delays *)
Lemma left_any A (g : gram A) : left_depth E (S R) g.
Proof. intros d _. apply HR. Qed.

(** calls per parser without reading a token *)
Fixpoint Q (r : nat) : nat := match r with O => 1 | S r => 1 + M * Q r end.
Definition QM : nat := Q (S R).
(** calls paid for by the first token that is read *)
Definition P (r : nat) : nat := (S R - r) * (M * QM) + M * QM.
Definition K : nat := P 0.
Lemma M_pos : 1 <= M. Proof. apply (weight_pos _ _ _ (HM 0)). Qed.
Lemma Q_pos r : 1 <= Q r. Proof. destruct r; simpl; lia. Qed.
Lemma Q_S r : Q r <= Q (S r).
Proof. simpl. pose proof M_pos. pose proof (Q_pos r). nia. Qed.
Lemma Q_mono r r' : r <= r' -> Q r <= Q r'.
Proof. induction 1; auto. pose proof (Q_S m). lia. Qed.
Lemma P_S r : r <= R -> P r = P (S r) + M * QM.
Proof. intros H. unfold P. replace (S R - r) with (S (S R - S r)) by lia. simpl. lia. Qed.
Lemma P_mono r r' : r <= r' -> P r' <= P r.
Proof. intros H. unfold P. assert (S R - r' <= S R - r) by lia. nia. Qed.

Definition bnd {A} (w r i : nat) (m : cm (sres T A)) : Prop :=
  match snd m with
  | Ret (SOk o) => if ok_con o then fst m + P r <= K * (ok_pos o - i) + w * QM else fst m <= w * Q r
  | Ret (SErr e) => if er_con e then fst m + P r <= K * (len - i) + w * QM else fst m <= w * Q r
  | _ => fst m <= w * Q r \/ fst m + P r <= K * (len - i) + w * QM
  end.
Notation infos := (fast_info E s HE).

(** *** a call that makes one call, with the same consumption *)
Definition same_con {A B} (x : sres T A) (y : out (sres T B)) : Prop :=
  match y with
  | Ret (SOk o) => match x with SOk o' => ok_con o = ok_con o' /\ ok_pos o = ok_pos o' | SErr e => ok_con o = false /\ er_con e = false end
  | Ret (SErr e) => match x with SErr e' => er_con e = er_con e' | _ => False end
  | _ => True
  end.
Lemma bnd_one {A B} (m : cm (sres T A)) (f : sres T A -> out (sres T B)) w w' r i :
  r <= S R -> w + 1 <= w' -> bnd w r i m -> (forall x, snd m = Ret x -> same_con x (f x)) ->
  (forall o, snd m = Ret (SOk o) -> ok_pos o <= len) ->
  bnd w' r i (tick (cbind m (fun x => cret (f x)))).
Proof.
  intros Hr Hw Hm Hf Hl. unfold bnd, tick, cbind in *. 
  pose proof (Q_pos r) as q1. pose proof (Q_pos (S R)) as q2. fold QM in q2.
  assert (H1 : w * Q r + 1 <= w' * Q r) by nia. assert (H2 : w * QM + 1 <= w' * QM) by nia.
  destruct (snd m) as [x|e|] eqn:Ex; cbn [fst snd].
  2,3: destruct Hm; [left|right]; lia.
  specialize (Hf x eq_refl). unfold cret. cbn [fst snd].
  destruct (f x) as [[o|e]|e|]; simpl in Hf.
  - destruct x as [o'|e'].
    + destruct Hf as [-> ->]. destruct (ok_con o'); lia.
    + destruct Hf as [-> H]. rewrite H in Hm. lia.
  - destruct x as [o'|e']; [contradiction|]. rewrite Hf. destruct (er_con e'); lia.
  - destruct x as [o'|e'].
    + specialize (Hl o' eq_refl). destruct (ok_con o'); [right|left; lia].
      assert (K * (ok_pos o' - i) <= K * (len - i)) by (apply Nat.mul_le_mono_l; lia). lia.
    + destruct (er_con e'); [right|left]; lia.
  - destruct x as [o'|e'].
    + specialize (Hl o' eq_refl). destruct (ok_con o'); [right|left; lia].
      assert (K * (ok_pos o' - i) <= K * (len - i)) by (apply Nat.mul_le_mono_l; lia). lia.
    + destruct (er_con e'); [right|left]; lia.
Qed.

(** *** then another call: after the first consumed nothing, or anything *)
Definition low {A} (w i : nat) (m : cm (sres T A)) : Prop :=
  match snd m with
  | Ret (SOk o) => fst m <= K * (ok_pos o - i) + w * QM
  | _ => fst m <= K * (len - i) + w * QM
  end.
Lemma bnd_low {A} w r i (m : cm (sres T A)) : r <= S R -> bnd w r i m -> low w i m.
Proof.
  intros Hr H. unfold bnd, low in *. pose proof (Q_mono r (S R) Hr) as q. fold QM in q.
  assert (w * Q r <= w * QM) by nia.
  pose proof (Nat.le_0_l (K * (len - i))).
  destruct (snd m) as [[o|e]|e|]; [pose proof (Nat.le_0_l (K * (ok_pos o - i))); destruct (ok_con o); lia|destruct (er_con e); lia| |]; destruct H; lia.
Qed.

Lemma split_len i j k : i <= j -> j <= k -> K * (j - i) + K * (k - j) = K * (k - i).
Proof. intros. rewrite <- Nat.mul_add_distr_l. f_equal. lia. Qed.

(** the second of two calls, [x] being what the first returned *)
Lemma bnd_two {A B C} (m : cm (sres T A)) (f : okr T A -> cm (sres T B)) (g : okr T A -> sres T B -> out (sres T C))
    (h : errr -> cm (sres T C)) wa wb w r i :
  r <= S R -> wa + wb + 1 <= w -> bnd wa r i m ->
  (forall o, snd m = Ret (SOk o) -> i <= ok_pos o <= len /\ ok_con o = Nat.ltb i (ok_pos o)) ->
  (forall o, snd m = Ret (SOk o) -> forall o', snd (f o) = Ret (SOk o') -> ok_pos o <= ok_pos o' <= len) ->
  (forall o, snd m = Ret (SOk o) -> ok_con o = true -> low wb (ok_pos o) (f o)) ->
  (forall o, snd m = Ret (SOk o) -> ok_con o = false -> bnd wb r i (f o)) ->
  (forall o x, snd m = Ret (SOk o) -> snd (f o) = Ret x ->
     match g o x with
     | Ret (SOk o'') => match x with SOk o' => ok_pos o'' = ok_pos o' /\ ok_con o'' = (ok_con o || ok_con o')%bool | SErr _ => False end
     | Ret (SErr e) => match x with SErr e' => er_con e = (ok_con o || er_con e')%bool | SOk _ => False end
     | _ => True
     end) ->
  (forall e, snd m = Ret (SErr e) -> h e = cret (Ret (SErr e))) ->
  bnd w r i (tick (cbind m (fun x => match x with SErr e => h e | SOk o => cbind (f o) (fun y => cret (g o y)) end))).
Proof.
  intros Hr Hw Hm Hi Hj Hlow Hb Hg Hh. unfold bnd in Hm. unfold bnd, tick.
  pose proof (Q_pos r) as q1. pose proof (Q_pos (S R)) as q2. fold QM in q2.
  assert (H1 : wa * Q r + wb * Q r + 1 <= w * Q r) by nia. assert (H2 : wa * QM + wb * QM + 1 <= w * QM) by nia.
  pose proof (Nat.le_0_l (K * (len - i))) as Z0.
  rewrite (cbind_eq m). destruct (snd m) as [[o|e]|e|] eqn:Em; cbn [fst snd].
  3,4: destruct Hm; [left|right]; lia.
  2:{ rewrite (Hh e eq_refl). unfold cret. cbn [fst snd]. destruct (er_con e); lia. }
  destruct (Hi o eq_refl) as [Hp Hc]. specialize (Hj o eq_refl). specialize (Hg o).
  unfold cbind. destruct (ok_con o) eqn:Eo.
  - specialize (Hlow o eq_refl Eo). clear Hb. unfold low in Hlow.
    destruct (snd (f o)) as [x|e|] eqn:Ef; cbn [fst snd].
    2,3: right; pose proof (split_len i (ok_pos o) len ltac:(lia) ltac:(lia)); lia.
    specialize (Hg x eq_refl eq_refl). unfold cret. cbn [fst snd].
    assert (Hx : fst (f o) + (K * (ok_pos o - i)) <= K * (len - i) + wb * QM).
    { destruct x as [o'|e'].
      - specialize (Hj o' eq_refl). pose proof (split_len i (ok_pos o) (ok_pos o') ltac:(lia) ltac:(lia)).
        pose proof (split_len i (ok_pos o') len ltac:(lia) ltac:(lia)). 
        pose proof (Nat.le_0_l (K * (len - ok_pos o'))). lia.
      - pose proof (split_len i (ok_pos o) len ltac:(lia) ltac:(lia)). lia. }
    destruct (g o x) as [[o''|e'']|e|].
    + destruct x as [o'|e']; [|contradiction]. destruct Hg as [-> Hcc]. rewrite Hcc. cbn [orb].
      specialize (Hj o' eq_refl). pose proof (split_len i (ok_pos o) (ok_pos o') ltac:(lia) ltac:(lia)). lia.
    + destruct x as [o'|e']; [contradiction|]. rewrite Hg. cbn [orb]. lia.
    + right. lia.
    + right. lia.
  - specialize (Hb o eq_refl Eo). clear Hlow. unfold bnd in Hb.
    assert (Hip : ok_pos o = i). { symmetry in Hc. apply Nat.ltb_ge in Hc. lia. }
    rewrite Hip in Hj.
    destruct (snd (f o)) as [x|e|] eqn:Ef; cbn [fst snd].
    2,3: assert (wa * Q r <= wa * QM) by (apply Nat.mul_le_mono_l, Q_mono; auto); destruct Hb; [left|right]; lia.
    specialize (Hg x eq_refl eq_refl). unfold cret. cbn [fst snd].
    assert (H3 : wa * Q r <= wa * QM) by (apply Nat.mul_le_mono_l, Q_mono; auto).
    destruct (g o x) as [[o''|e'']|e|].
    + destruct x as [o'|e']; [|contradiction]. destruct Hg as [-> Hcc]. rewrite Hcc. cbn [orb].
      destruct (ok_con o'); lia.
    + destruct x as [o'|e']; [contradiction|]. rewrite Hg. cbn [orb]. destruct (er_con e'); lia.
    + destruct x as [o'|e'].
      * specialize (Hj o' eq_refl). pose proof (split_len i (ok_pos o') len ltac:(lia) ltac:(lia)).
        pose proof (Nat.le_0_l (K * (len - ok_pos o'))). destruct (ok_con o'); [right|left]; lia.
      * destruct (er_con e'); [right|left]; lia.
    + destruct x as [o'|e'].
      * specialize (Hj o' eq_refl). pose proof (split_len i (ok_pos o') len ltac:(lia) ltac:(lia)).
        pose proof (Nat.le_0_l (K * (len - ok_pos o'))). destruct (ok_con o'); [right|left]; lia.
      * destruct (er_con e'); [right|left]; lia.
Qed.

Lemma prepend_shape {B} (oc : bool) x (y : sres T B) :
  match sres_prepend x oc y with
  | SOk o'' => match y with SOk o' => ok_pos o'' = ok_pos o' /\ ok_con o'' = (oc || ok_con o')%bool | SErr _ => False end
  | SErr e => match y with SErr e' => er_con e = (oc || er_con e')%bool | SOk _ => False end
  end.
Proof.
  destruct y as [o|e]; simpl.
  - unfold ok_prepend. destruct (ok_con o) eqn:X; simpl; rewrite ?X; destruct oc; auto.
  - unfold er_prepend. destruct (er_con e) eqn:X; simpl; rewrite ?X; destruct oc; auto.
Qed.

Lemma many_low {A} (p : pcost T A) (w : nat) : w <= M ->
  (forall x c, x <= len -> bnd w (S R) x (p s x c)) ->
  (forall x c o, x <= len -> snd (p s x c) = Ret (SOk o) -> x <= ok_pos o <= len) ->
  forall n vs x c, x <= len -> low w x (many_cost p n true vs s x c) /\
    match snd (many_cost p n true vs s x c) with Ret (SOk o) => x <= ok_pos o <= len /\ ok_con o = true | Ret (SErr e) => er_con e = true | _ => True end.
Proof.
  intros Hw Hp Hi. induction n as [|n IH]; intros vs x c Hx; [split; [apply Nat.le_0_l|exact I]|].
  cbn [many_cost]. rewrite (cbind_eq (p s x c)). specialize (Hp x c Hx). specialize (Hi x c).
  unfold bnd in Hp. unfold low. pose proof (Nat.le_0_l (K * (len - x))) as Z0.
  assert (HP : w * QM <= P (S R)). { unfold P. rewrite Nat.sub_diag. simpl. apply Nat.mul_le_mono_r; auto. }
  fold QM in Hp.
  destruct (snd (p s x c)) as [[o|e]|e|]; cbn [fst snd].
  - specialize (Hi o Hx eq_refl). destruct (ok_con o).
    + specialize (IH (vs ++ [ok_val o]) (ok_pos o) (ok_ctx o) (proj2 Hi)). unfold low in IH.
      destruct IH as [I1 I2]. set (m := many_cost p n true (vs ++ [ok_val o]) s (ok_pos o) (ok_ctx o)) in *.
      destruct (snd m) as [[o'|e']|e'|]; cbn [fst snd].
      * destruct I2 as [I2 I3]. split; [|split; [lia|exact I3]]. pose proof (split_len x (ok_pos o) (ok_pos o') ltac:(lia) ltac:(lia)). lia.
      * split; auto. pose proof (split_len x (ok_pos o) len ltac:(lia) ltac:(lia)). lia.
      * split; auto. pose proof (split_len x (ok_pos o) len ltac:(lia) ltac:(lia)). lia.
      * split; auto. pose proof (split_len x (ok_pos o) len ltac:(lia) ltac:(lia)). lia.
    + simpl. split; auto. lia.
  - destruct (er_con e) eqn:Ee; simpl; [split; auto; lia|]. rewrite Nat.sub_diag. split; [lia|]. auto.
  - split; auto. destruct Hp; lia.
  - split; auto. destruct Hp; lia.
Qed.

Theorem cost_bound n : forall A (g : gram A) w r i c, weight_le g w -> w <= M -> r <= S R ->
  left_depth E r g -> wf g -> no_attempt g -> i <= len -> bnd w r i (cfast E n g s i c).
Proof.
  induction n as [|n IH]; intros A g w r i c Hw HwM Hr Hd Hg Ha Hi.
  { unfold bnd. simpl. left. lia. }
  pose proof (weight_pos _ _ _ Hw) as Hw1.
  pose proof (Q_pos r) as q1. pose proof (Q_pos (S R)) as q2. fold QM in q2.
  pose proof (Nat.le_0_l (K * (len - i))) as Z0.
  assert (Hunit : 1 <= w * Q r) by nia. assert (HunitM : 1 <= w * QM) by nia.
  assert (HPK : P r <= K) by (unfold K; apply P_mono; lia).
  assert (Hinfo : forall B (q : gram B) x c0 o, wf q -> x <= len -> snd (cfast E n q s x c0) = Ret (SOk o) ->
    x <= ok_pos o <= len /\ ok_con o = Nat.ltb x (ok_pos o) /\ lang E B q (map inl (slice s x (ok_pos o))) (ok_val o)).
  { intros B q x c0 o Hq Hx Ho. rewrite cfast_fast in Ho. apply (infos B q x c0 n (SOk o) Hq Hx Ho). }
  assert (Hlow : forall B (q : gram B) x c0 w', weight_le q w' -> w' <= M -> wf q -> no_attempt q -> x <= len ->
    low w' x (cfast E n q s x c0)).
  { intros B q x c0 w' H1 H2 H3 H4 H5. apply (bnd_low w' (S R)); auto. apply IH; auto. apply left_any. }
  assert (Hprim : forall (m : cm (sres T A)), fst m = 1 ->
    (forall o, snd m = Ret (SOk o) -> ok_con o = true -> i < ok_pos o) ->
    (forall e, snd m = Ret (SErr e) -> er_con e = false) -> bnd w r i m).
  { intros m H1 H2 H3. unfold bnd. rewrite H1. destruct (snd m) as [[o|e]|e|]; try (left; lia).
    - destruct (ok_con o) eqn:Eo; [|lia]. specialize (H2 o eq_refl Eo).
      assert (K * 1 <= K * (ok_pos o - i)) by (apply Nat.mul_le_mono_l; lia). lia.
    - rewrite (H3 e eq_refl). lia. }
  destruct g as [A x|A f|A l| |test|teq x l|teq x l|A m|A B p f|A p q|A B p f|A B C p q merge|A p|A p|A p|A p x|A p|A p x l|A p fn lab|A p|A p|A delta p|d|A]; cbn [cfast].
  - apply Hprim; simpl; auto; [intros ? [= <-]; discriminate|discriminate].
  - apply Hprim; auto; simpl; unfold purefn_fast; destruct (f tt); simpl; try discriminate; intros ? [= <-]; discriminate.
  - apply Hprim; simpl; auto; [discriminate|]. intros ? [= <-]. reflexivity.
  - apply Hprim; auto; simpl; unfold eof_fast; destruct (Nat.eqb _ _); try discriminate; intros ? [= <-]; simpl; auto; discriminate.
  - apply Hprim; auto; simpl; unfold satisfy_fast; destruct (probe_tok _ s i) as [[t|]| |]; simpl; try discriminate; intros ? [= <-]; simpl; auto; lia.
  - apply Hprim; auto; simpl; unfold sym_fast; destruct (probe_sym teq x s i) as [[t|]| |]; simpl; try discriminate; intros ? [= <-]; simpl; auto; lia.
  - destruct Hg as [[Hx _] _]. apply Hprim; auto; simpl; unfold literal_fast; destruct (starts_with _ _ s i); simpl; try discriminate; intros ? [= <-]; simpl; auto.
    destruct x; [congruence|simpl; lia].
  - destruct Hg as [Hm _]. simpl in Hm. apply Hprim; auto; simpl; unfold regexp_fast, probe_re; destruct (m s i) as [[e [v|]]|] eqn:Em; simpl; try discriminate; intros ? [= <-]; simpl; auto.
    intros He. apply Hm in Em; auto. destruct (Nat.eqb_spec e i); [discriminate|lia].
  - destruct Hw as (a & Hw & Hn), Hg as [_ Hg], Ha as [_ Ha]. unfold fmap_cost.
    apply (bnd_one _ (sres_fmap f) a); auto.
    + apply IH; auto; try lia. refine (left_sub E _ _ _ _ _ Hd _). intros d Hc. constructor. auto.
    + intros [x|x] _; simpl; auto. unfold ok_fmap. destruct (f (ok_val x)); simpl; auto.
    + intros x Hx. apply (Hinfo _ _ _ _ _ Hg Hi Hx).
  - destruct Hw as (a & b & Hw & Hwb & Hn), Hg as (_ & Hg & Hg2), Ha as (_ & Ha & Ha2). unfold alt_cost.
    assert (Hp : bnd a r i (cfast E n p s i c)) by (apply IH; auto; try lia; refine (left_sub E _ _ _ _ _ Hd _); intros d Hc; apply hd_alt_l; auto).
    assert (Hq : bnd b r i (cfast E n q s i c)) by (apply IH; auto; try lia; refine (left_sub E _ _ _ _ _ Hd _); intros d Hc; apply hd_alt_r; auto).
    pose proof (Hinfo _ q i c) as Hj. set (mp := cfast E n p s i c) in *. set (mq := cfast E n q s i c) in *.
    assert (H1 : a * Q r + b * Q r + 1 <= w * Q r) by nia. assert (H2 : a * QM + b * QM + 1 <= w * QM) by nia.
    assert (H3 : a * Q r <= a * QM) by (apply Nat.mul_le_mono_l, Q_mono; auto).
    unfold bnd in *. unfold tick. rewrite (cbind_eq mp). destruct (snd mp) as [[o|e]|e|]; cbn [fst snd].
    3,4: destruct Hp; [left|right]; lia.
    + unfold cret. cbn [fst snd]. destruct (ok_con o); lia.
    + destruct (er_con e) eqn:Ee; [unfold cret; cbn [fst snd]; rewrite Ee; lia|].
      rewrite (cbind_eq mq). destruct (snd mq) as [[o|e']|e'|]; cbn [fst snd].
      3,4: destruct Hq; [left|right]; lia.
      * cbn [sres_con]. destruct (ok_con o) eqn:Eo; unfold cret; cbn [fst snd]; rewrite ?Eo; [lia|].
        unfold ok_set_exp. rewrite Eo. cbn [ok_con]. lia.
      * cbn [sres_con]. destruct (er_con e') eqn:Eo; unfold cret; cbn [fst snd]; rewrite ?Eo; cbn [er_con]; lia.
  - destruct Hw as (a & b & Hw & Hwb & Hn), Hg as (_ & Hg & Hgf), Ha as (_ & Ha & Haf). unfold bind_cost.
    apply (bnd_two _ (fun oa => cfast E n (f (ok_val oa)) s (ok_pos oa) (ok_ctx oa))
      (fun oa rb => Ret (sres_prepend (ok_exp oa) (ok_con oa) rb)) (fun e => cret (Ret (SErr e))) a b); auto.
    + apply IH; auto; try lia. refine (left_sub E _ _ _ _ _ Hd _). intros d Hc. apply hd_bind_l. auto.
    + intros x Hx. destruct (Hinfo _ _ _ _ _ Hg Hi Hx) as (H1 & H2 & _). auto.
    + intros x Hx o' Ho'. destruct (Hinfo _ _ _ _ _ Hg Hi Hx) as (H1 & _).
      apply (Hinfo _ _ _ _ _ (Hgf _) (proj2 H1) Ho').
    + intros x Hx _. destruct (Hinfo _ _ _ _ _ Hg Hi Hx) as (H1 & _). apply Hlow; auto; try lia; [apply Hgf|apply Haf].
    + intros x Hx Hc. destruct (Hinfo _ _ _ _ _ Hg Hi Hx) as (H1 & H2 & L).
      rewrite Hc in H2. symmetry in H2. apply Nat.ltb_ge in H2. assert (Hp : ok_pos x = i) by lia.
      rewrite Hp in *. rewrite slice_nil in L. apply IH; auto; try lia; [|apply Hgf|apply Haf].
      refine (left_sub E _ _ _ _ _ Hd _). intros d Hcl. eapply hd_bind_r; eauto.
    + intros x y Hx Hy. pose proof (prepend_shape (ok_con x) (ok_exp x) y) as S. destruct (sres_prepend _ _ y); auto.
  - destruct Hw as (a & b & Hw & Hwb & Hn), Hg as (_ & Hg & Hgf), Ha as (_ & Ha & Haf). unfold seq_cost.
    apply (bnd_two _ (fun oa => cfast E n q s (ok_pos oa) (ok_ctx oa))
      (fun oa rb => rc <- sres_fmap (fun vb => Ret (merge (ok_val oa) vb)) rb ;; Ret (sres_prepend (ok_exp oa) (ok_con oa) rc))
      (fun e => cret (Ret (SErr e))) a b); auto.
    + apply IH; auto; try lia. refine (left_sub E _ _ _ _ _ Hd _). intros d Hc. apply hd_seq_l. auto.
    + intros x Hx. destruct (Hinfo _ _ _ _ _ Hg Hi Hx) as (H1 & H2 & _). auto.
    + intros x Hx o' Ho'. destruct (Hinfo _ _ _ _ _ Hg Hi Hx) as (H1 & _).
      apply (Hinfo _ _ _ _ _ Hgf (proj2 H1) Ho').
    + intros x Hx _. destruct (Hinfo _ _ _ _ _ Hg Hi Hx) as (H1 & _). apply Hlow; auto; try lia.
    + intros x Hx Hc. destruct (Hinfo _ _ _ _ _ Hg Hi Hx) as (H1 & H2 & L).
      rewrite Hc in H2. symmetry in H2. apply Nat.ltb_ge in H2. assert (Hp : ok_pos x = i) by lia.
      rewrite Hp in *. rewrite slice_nil in L. apply IH; auto; try lia.
      refine (left_sub E _ _ _ _ _ Hd _). intros d Hcl. eapply hd_seq_r; eauto.
    + intros x y Hx Hy. destruct y as [y|y]; cbn [sres_fmap obind].
      * pose proof (prepend_shape (ok_con x) (ok_exp x) (SOk (Ok (merge (ok_val x) (ok_val y)) (ok_pos y) (ok_ctx y) (ok_exp y) (ok_con y)))) as S.
        simpl in S |- *. auto.
      * pose proof (prepend_shape (B := C) (ok_con x) (ok_exp x) (SErr y)) as S. simpl in S |- *. auto.
  - destruct Hw as (a & Hw & Hn), Hg as [_ Hg], Ha as [_ Ha]. unfold maybe_cost.
    assert (Heq : tick (cbind (cfast E n p s i c) (fun r0 => match r0 with
        | SOk _ => cret (sres_fmap (fun v => Ret (Some v)) r0)
        | SErr e => if er_con e then cret (Ret (SErr e)) else cret (Ret (SOk (Ok None i c (er_exp e) false)))
        end)) = tick (cbind (cfast E n p s i c) (fun r0 => cret (match r0 with
        | SOk _ => sres_fmap (fun v => Ret (Some v)) r0
        | SErr e => if er_con e then Ret (SErr e) else Ret (SOk (Ok None i c (er_exp e) false))
        end)))).
    { unfold tick. f_equal; rewrite !cbind_eq; destruct (snd (cfast E n p s i c)) as [[o|e]| |]; auto; destruct (er_con e); auto. }
    rewrite Heq. apply (bnd_one _ _ a); auto.
    + apply IH; auto; try lia. refine (left_sub E _ _ _ _ _ Hd _). intros d Hc. constructor. auto.
    + intros [x|x] _; simpl; auto. destruct (er_con x) eqn:Ex; simpl; auto.
    + intros x Hx. apply (Hinfo _ _ _ _ _ Hg Hi Hx).
  - destruct Hw as (a & Hw & Hn), Hg as [_ Hg], Ha as [_ Ha].
    destruct n as [|n']; [left; simpl; lia|]. set (n := S n') in *.
    cbn [many_cost n]. fold n.
    assert (Hp : bnd a r i (cfast E n p s i c)) by (apply IH; auto; try lia; refine (left_sub E _ _ _ _ _ Hd _); intros d Hc; constructor; auto).
    pose proof (Hinfo _ p i c) as Hj.
    assert (Hml := many_low (cfast E n p) a ltac:(lia) ltac:(intros; apply IH; auto; try lia; apply left_any)
      ltac:(intros x c0 o Hx Ho; apply (Hinfo _ p x c0 o Hg Hx Ho)) n').
    assert (H1 : 2 * (a * Q r) + 1 <= w * Q r) by nia. assert (H2 : 2 * (a * QM) + 1 <= w * QM) by nia.
    assert (H3 : a * Q r <= a * QM) by (apply Nat.mul_le_mono_l, Q_mono; auto).
    unfold bnd in *. unfold tick. rewrite (cbind_eq (cfast E n p s i c)).
    destruct (snd (cfast E n p s i c)) as [[o|e]|e|]; cbn [fst snd].
    3,4: destruct Hp; [left|right]; lia.
    + specialize (Hj o Hg Hi eq_refl). destruct (ok_con o).
      * destruct Hj as (Hj & _). specialize (Hml ([] ++ [ok_val o]) (ok_pos o) (ok_ctx o) (proj2 Hj)).
        cbn [app] in Hml |- *. set (mm := many_cost (cfast E n p) n' true [ok_val o] s (ok_pos o) (ok_ctx o)) in *.
        unfold low in Hml. destruct Hml as [L1 L2].
        destruct (snd mm) as [[o'|e']|e'|].
        -- destruct L2 as [L2 ->]. pose proof (split_len i (ok_pos o) (ok_pos o') ltac:(lia) ltac:(lia)). lia.
        -- rewrite L2. pose proof (split_len i (ok_pos o) len ltac:(lia) ltac:(lia)). lia.
        -- right. pose proof (split_len i (ok_pos o) len ltac:(lia) ltac:(lia)). lia.
        -- right. pose proof (split_len i (ok_pos o) len ltac:(lia) ltac:(lia)). lia.
      * unfold cret. cbn [fst snd]. left. lia.
    + destruct (er_con e) eqn:Ee; unfold cret; cbn [fst snd ok_con]; rewrite ?Ee; lia.
  - destruct Ha as [Ha _]. exfalso. apply Ha. exact I.
  - destruct Hw as (a & Hw & Hn), Hg as [_ Hg], Ha as [_ Ha]. unfold label_cost.
    apply (bnd_one _ (fun r0 => Ret (sres_set_exp [x] r0)) a); auto.
    + apply IH; auto; try lia. refine (left_sub E _ _ _ _ _ Hd _). intros d Hc. constructor. auto.
    + intros [y|y] _; simpl; [unfold ok_set_exp; destruct (ok_con y) eqn:Y; auto|unfold er_set_exp; destruct (er_con y) eqn:Y; auto].
    + intros y Hy. apply (Hinfo _ _ _ _ _ Hg Hi Hy).
  - destruct Hw as (a & Hw & Hn), Hg as [_ Hg], Ha as [_ Ha]. apply IH; auto; try lia.
    + eapply weight_mono; [|exact Hw]. lia.
    + refine (left_sub E _ _ _ _ _ Hd _). intros d Hc. constructor. auto.
  - destruct Hw as (a & Hw & Hn), Hg as [_ Hg], Ha as [_ Ha]. apply IH; auto; try lia.
    + eapply weight_mono; [|exact Hw]. lia.
    + refine (left_sub E _ _ _ _ _ Hd _). intros d Hc. constructor. auto.
  - destruct Hw as (a & Hw & Hn), Hg as [_ Hg], Ha as [_ Ha]. apply IH; auto; try lia.
    + eapply weight_mono; [|exact Hw]. lia.
    + refine (left_sub E _ _ _ _ _ Hd _). intros d Hc. constructor. auto.
  - destruct Hw as (a & Hw & Hn), Hg as [_ Hg], Ha as [_ Ha]. unfold block_cost. cbv zeta.
    apply (bnd_one _ (fun r0 => Ret (sres_set_ctx _ r0)) a); auto.
    + apply IH; auto; try lia. refine (left_sub E _ _ _ _ _ Hd _). intros d Hc. constructor. auto.
    + intros [y|y] _; simpl; auto.
    + intros y Hy. apply (Hinfo _ _ _ _ _ Hg Hi Hy).
  - destruct Hw as (a & Hw & Hn), Hg as [_ Hg], Ha as [_ Ha]. unfold aligned_cost. cbv zeta.
    destruct (Z.eqb _ _); [|apply Hprim; simpl; auto; [discriminate|intros ? [= <-]; auto]].
    set (c' := update_loc c s i).
    assert (Heq : tick (cfast E n p s i c') = tick (cbind (cfast E n p s i c') (fun x => cret (Ret x)))).
    { unfold tick. rewrite snd_bind_ret. f_equal. f_equal. rewrite cbind_eq. destruct (snd (cfast E n p s i c')); simpl; auto. }
    rewrite Heq. apply (bnd_one _ (fun x => Ret x) a); auto.
    + apply IH; auto; try lia. refine (left_sub E _ _ _ _ _ Hd _). intros d Hc. constructor. auto.
    + intros [y|y] _; simpl; auto.
    + intros y Hy. apply (Hinfo _ _ _ _ _ Hg Hi Hy).
  - destruct Hw as (a & Hw & Hn), Hg as [_ Hg], Ha as [_ Ha]. unfold indented_cost. cbv zeta.
    destruct (Z.eqb _ _); [|apply Hprim; simpl; auto; [discriminate|intros ? [= <-]; auto]].
    apply (bnd_one _ (fun r0 => Ret (sres_set_ctx _ r0)) a); auto.
    + apply IH; auto; try lia. refine (left_sub E _ _ _ _ _ Hd _). intros d Hc. constructor. auto.
    + intros [y|y] _; simpl; auto.
    + intros y Hy. apply (Hinfo _ _ _ _ _ Hg Hi Hy).
  - destruct r as [|r]; [destruct (Hd d (hd_delay E d))|]. pose proof (Hd d (hd_delay E d)) as Hd'.
    specialize (IH _ (E d) M r i c (HM d) ltac:(lia) ltac:(lia) Hd' (HE d) (HA d) Hi).
    assert (HP := P_S r ltac:(lia)). unfold bnd in IH |- *. unfold tick. cbn [fst snd]. simpl in Hw.
    assert (H1 : S (M * Q r) <= w * Q (S r)). { cbn [Q] in *. nia. }
    destruct (snd (cfast E n (E d) s i c)) as [[o|e]|e|].
    + destruct (ok_con o); lia.
    + destruct (er_con e); lia.
    + destruct IH; [left|right]; lia.
    + destruct IH; [left|right]; lia.
  - apply Hprim; simpl; auto; discriminate.
Qed.
End Bound.
