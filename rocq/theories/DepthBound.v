(** How deeply the recovering parse functions call each other: a bound. *)
From Verif Require Import DepthFullProofs PropsTerm.

Section FullDepth.
Context {T : Type} {V : nat -> Type}.
Notation gram := (gram T V).
Variable E : env T V.
Variable s : list T.
Notation len := (List.length s).
Hypothesis HE : wf_env E.
Variables M R : nat.
Hypothesis HM : forall d, size_le (E d) M.
Hypothesis HR : forall d, left_depth E R (E d).
Variable ins : Z.
Hypothesis Hins : (0 <= ins)%Z.

Lemma rep_ins A (g : gram A) pos c rem n rc rep : wf g -> pos <= len -> okrem rem ->
  full E n g s pos c ins rem = Ret (RRec rc) -> In rep (rc_reps rc) ->
  okrem (Some (r_ins rep)) /\ pos <= r_pos rep <= len /\ (rem = None -> pos < r_pos rep) /\
  (r_pos rep = pos -> exists z, rem = Some z /\ (r_ins rep < z)%Z) /\ (pos < r_pos rep -> (r_ins rep <= ins)%Z).
Proof.
  intros Hg Hp Hr H Hin. pose proof (full_info E s HE _ _ _ _ _ _ _ _ Hg Hp H) as Hi.
  destruct (Hi rep Hin) as (I1 & I2 & _ & I3). destruct (I3 Hins Hr) as [I4 I5].
  split; [intros z [= <-]; auto|]. split; auto. split; auto. split; auto.
  intros Hlt.
  assert (Hg' : gok True g) by (apply gok_wf; auto).
  assert (HE' : forall d, gok True (E d)) by (intros d; apply gok_wf; auto).
  pose proof (full_budget E s _ _ _ _ (any_system (T:=T) s True) HE' n _ g pos c ins rem _ Hg' Hp I Hins Hr H) as B.
  destruct (B rep Hin) as (sk & _ & B1 & _ & _ & Bl & B2). unfold bud in B2.
  destruct (Nat.eqb_spec (r_pos rep) pos); [lia|]. pose proof (ins_at_nonneg (r_pos rep) sk). lia.
Qed.

Definition units (pos : nat) (rem : option Z) : nat := (len - pos) * (Z.to_nat ins + 2) + rank rem.
Lemma units_later pos pos' rem rem' : pos < pos' <= len -> (forall z, rem' = Some z -> z <= ins)%Z ->
  units pos' rem' + 1 <= units pos rem.
Proof.
  intros Hp Hr. unfold units. assert (rank rem' <= Z.to_nat ins + 1).
  { destruct rem' as [z|]; cbn; [|lia]. specialize (Hr z eq_refl). lia. }
  assert ((len - pos') * (Z.to_nat ins + 2) + (Z.to_nat ins + 2) <= (len - pos) * (Z.to_nat ins + 2)).
  { replace ((len - pos') * (Z.to_nat ins + 2) + (Z.to_nat ins + 2)) with ((len - pos' + 1) * (Z.to_nat ins + 2)) by lia.
    apply Nat.mul_le_mono_r. lia. }
  lia.
Qed.
Lemma units_none pos rem : units pos None <= units pos rem.
Proof. unfold units. cbn. lia. Qed.

Notation K := (DK M R).
Lemma later_le j i b : j + 1 <= i -> b + M * S R + K * j + 1 <= b + K * i.
Proof. intros H. assert (K * (j + 1) <= K * i) by (apply Nat.mul_le_mono_l; lia). unfold DK in *. lia. Qed.

Lemma flat_le {A B} (f : A -> dm (list B)) l X : (forall a, In a l -> fst (f a) <= X) -> fst (dflat_map f l) <= X.
Proof.
  induction l as [|a l IH]; intros H; [cbn; lia|]. cbn [dflat_map].
  apply dbind_le; [apply H; left; auto|]. intros y _.
  apply dbind_le; [apply IH; intros; apply H; right; auto|]. intros; apply dret_le.
Qed.
Lemma continue_le {A B C} (ra : recr T A) (f : A -> nat -> ctx T -> Z -> dm (res T B)) (merge : A -> B -> C) X :
  (forall rep, In rep (rc_reps ra) -> fst (f (r_val rep) (r_pos rep) (r_ctx rep) (r_ins rep)) <= X) ->
  fst (continue_depth ra ins f merge) <= X.
Proof.
  intros H. unfold continue_depth. apply dbind_le; [|intros; apply dret_le].
  apply flat_le. intros a Ha. unfold cont_one_depth. apply dbind_le; [apply H; auto|].
  intros [o|e|r] _; apply dret_le.
Qed.

Lemma full_depth n : forall A (g : gram A) w r i c rem, size_le g w -> left_depth E r g -> wf g -> i <= len -> okrem rem ->
  fst (dfull E n g s i c ins rem) <= w + M * r + K * units i rem.
Proof.
  induction n as [|n IH0]; intros A g w r i c rem Hw Hl Hg Hi Hrem; [apply Nat.le_0_l|]. pose proof (size_pos _ _ _ Hw) as H1.
  assert (Hinfo : forall B (q : gram B) x c0 rm o, wf q -> x <= len -> snd (dfull E n q s x c0 ins rm) = Ret (ROk o) ->
    x <= ok_pos o <= len /\ ok_con o = Nat.ltb x (ok_pos o) /\ lang E B q (map inl (slice s x (ok_pos o))) (ok_val o)).
  { intros B q x c0 rm o Hq Hx Ho. rewrite dfull_full in Ho. apply (full_info E s HE B q x c0 ins rm n (ROk o) Hq Hx Ho). }
  assert (Hrep : forall B (q : gram B) x c0 rm rc rep, wf q -> x <= len -> okrem rm ->
    snd (dfull E n q s x c0 ins rm) = Ret (RRec rc) -> In rep (rc_reps rc) ->
    okrem (Some (r_ins rep)) /\ x <= r_pos rep <= len /\ (rm = None -> x < r_pos rep) /\
    (r_pos rep = x -> exists z, rm = Some z /\ (r_ins rep < z)%Z) /\ (x < r_pos rep -> (r_ins rep <= ins)%Z)).
  { intros B q x c0 rm rc rep Hq Hx Hrm Hr Hin. rewrite dfull_full in Hr. eapply rep_ins; eauto. }
  set (X := M * r + K * units i rem).
  assert (okn : okrem None) by (intros z; discriminate).
  assert (oki : okrem (Some ins)) by (intros z [= <-]; auto).
  (* later: strictly fewer units *)
  assert (Hlow : forall B (q : gram B) w j rm c, size_le q w -> wf q -> j <= len -> okrem rm -> units j rm + 1 <= units i rem ->
    fst (dfull E n q s j c ins rm) + 1 <= w + X).
  { intros B q w' j rm c' Hw' Hq Hj Hrm Hu. pose proof (IH0 B q w' (S R) j c' rm Hw' (left_any' E R HR B q) Hq Hj Hrm) as H.
    pose proof (later_le _ _ w' Hu). unfold X. pose proof (Nat.le_0_l (M * r)). lia. }
  assert (Hsame : forall B (q : gram B) w rm, size_le q w -> left_depth E r q -> wf q -> okrem rm -> units i rm <= units i rem ->
    forall c, fst (dfull E n q s i c ins rm) <= w + X).
  { intros B q w' rm H2 H3 H4 H5 H6 c'. pose proof (IH0 B q w' r i c' rm H2 H3 H4 Hi H5). unfold X.
    assert (K * units i rm <= K * units i rem) by (apply Nat.mul_le_mono_l; auto). lia. }
  assert (Hrun : forall B (q : gram B) w j rm c, size_le q w -> wf q -> i < j <= len -> okrem rm -> (forall z, rm = Some z -> z <= ins)%Z ->
    fst (dfull E n q s j c ins rm) + 1 <= w + X).
  { intros B q w' j rm c' H2 H3 H4 H5 H6. apply Hlow; auto; try lia. apply units_later; auto. }
  assert (Hcont : forall B (q : gram B) C (q' : gram C) w rm c rc rep, size_le q' w -> wf q -> wf q' -> rm = rem \/ rm = None ->
    snd (dfull E n q s i c ins rm) = Ret (RRec rc) -> In rep (rc_reps rc) ->
    forall c', fst (dfull E n q' s (r_pos rep) c' ins (Some (r_ins rep))) <= w + X).
  { intros B q C q' w' rm c1 rc rep H2 H3 H4 Hrm H5 H6 c'.
    assert (Hok : okrem rm) by (destruct Hrm as [-> | ->]; auto).
    destruct (Hrep _ _ _ _ _ _ _ H3 Hi Hok H5 H6) as (J1 & J2 & J3 & J4 & J5).
    destruct (Nat.eq_dec (r_pos rep) i) as [He|He].
    - destruct (J4 He) as (z & Hz & Hlt). subst rm. destruct Hrm as [Hrm|Hrm]; [|discriminate]. subst rem.
      assert (Hu : units (r_pos rep) (Some (r_ins rep)) + 1 <= units i (Some z)).
      { rewrite He. unfold units. cbn. specialize (J1 _ eq_refl). lia. }
      pose proof (Hlow _ q' w' (r_pos rep) _ c' H2 H4 (proj2 J2) J1 Hu). lia.
    - pose proof (Hrun _ q' w' (r_pos rep) (Some (r_ins rep)) c' H2 H4 ltac:(lia) J1). 
      assert (forall z, Some (r_ins rep) = Some z -> (z <= ins)%Z) by (intros z [= <-]; apply J5; lia). 
      specialize (H H0). lia. }
  assert (Hfast : forall B (q : gram B) w, size_le q w -> left_depth E r q -> wf q -> forall c, fst (dfast E n q s i c) <= w + X).
  { intros B q w' H2 H3 H4 c'. pose proof (fast_depth E s HE M R HM HR n B q w' r i c' H2 H3 H4 Hi). unfold X.
    assert (K * (len - i) <= K * units i rem) by (apply Nat.mul_le_mono_l; unfold units; nia). lia. }
  replace (w + M * r + K * units i rem) with (w + X) by (unfold X; lia).
  cbn [dfull].
  destruct g as [A x|A f|A l| |test|teq x l|teq x l|A m|A B p f|A p q|A B p f|A B C p q merge|A p|A p|A p|A p x|A p|A p x l|A p fn lab|A p|A p|A delta p|d|A];
    try (apply (nest_le _ 0); [apply dret_le|lia]).
  all: try (destruct Hw as (a & Hw & Hn); destruct Hg as [_ Hg];
    pose proof (fun rm Hl => Hsame _ p a rm Hw Hl Hg) as IH).
  all: try (destruct Hw as (a & b & Hw & Hwb & Hn); destruct Hg as (_ & Hg & Hgb);
    pose proof (fun rm Hl => Hsame _ p a rm Hw Hl Hg) as IH).
  all: try (apply (nest_le _ (w - 1 + X)); [|lia]).
  all: pose proof (units_none i rem) as Hun.
  all: try (assert (L : left_depth E r p) by (refine (left_sub E _ _ _ _ _ Hl _); intros d Hc; constructor; auto);
    pose proof (fun c => IH rem L Hrem (le_n _) c) as IHr; pose proof (fun c => IH None L okn Hun c) as IHn).
  - apply dbind_le; [specialize (IHr c); lia|]. intros; apply dret_le.
  - assert (L2 : left_depth E r q) by (refine (left_sub E _ _ _ _ _ Hl _); intros d Hc; apply hd_alt_r; auto).
    pose proof (fun rm Ho Hu => Hsame _ q b rm Hwb L2 Hgb Ho Hu c) as IHq. pose proof (IHq None okn Hun) as IHqn. pose proof (IHq rem Hrem (le_n _)) as IHqr.
    unfold alt_depthr. apply dbind_le; [specialize (IHn c); lia|]. 
    assert (HR' : forall la xa, fst (alt_recover_depth (dfull E n p) (dfull E n q) la xa s i c ins rem) <= w - 1 + X).
    { intros la xa. unfold alt_recover_depth. destruct rem as [z|]; [|apply dret_le].
      apply dbind_le; [specialize (IHr c); lia|]. intros ra _. apply dbind_le; [lia|]. intros rb _.
      destruct ra, rb; apply dret_le. }
    assert (HT : forall (ca : bool) (ra : res T A) la xa, fst (if ca then dret (Ret ra) else
      rb <^ dfull E n q s i c ins None ;;
      if res_con rb then dret (Ret rb) else
      match rb with
      | ROk ob => dret (Ret (ROk (ok_set_exp (Append xa (res_exp rb)) ob)))
      | _ => alt_recover_depth (dfull E n p) (dfull E n q) la (Append xa (res_exp rb)) s i c ins rem
      end) <= w - 1 + X).
    { intros ca ra la xa. destruct ca; [apply dret_le|]. apply dbind_le; [lia|].
      intros rb _. destruct (res_con rb); [apply dret_le|]. destruct rb; [apply dret_le| |]; apply HR'. }
    intros [o|[la xa ca]|[reps mn la xa ca]] _; [apply dret_le| |]; apply HT.
  - unfold bind_depthr. apply dbind_le; [pose proof (IH rem L Hrem (le_n _) c); lia|]. intros [o|e|rc] Ho; [|apply dret_le|].
    + destruct (Hinfo _ _ _ _ _ _ Hg Hi Ho) as (P & Hc & Hlang).
      apply dbind_le; [|intros; apply dret_le].
      destruct (Nat.eq_dec (ok_pos o) i) as [Hp|Hp].
      * rewrite Hc, Hp, Nat.ltb_irrefl. rewrite Hp in Hlang. rewrite slice_nil in Hlang.
        assert (L2 : left_depth E r (f (ok_val o))) by (refine (left_sub E _ _ _ _ _ Hl _); intros d Hcl; eapply hd_bind_r; eauto).
        pose proof (Hsame _ _ b rem (Hwb _) L2 (Hgb _) Hrem (le_n _) (ok_ctx o)). lia.
      * assert (Hlt : Nat.ltb i (ok_pos o) = true) by (apply Nat.ltb_lt; lia). rewrite Hc, Hlt.
        pose proof (Hrun _ (f (ok_val o)) b (ok_pos o) (Some ins) (ok_ctx o) (Hwb _) (Hgb _) ltac:(lia) oki ltac:(intros z [= <-]; lia)). lia.
    + apply continue_le. intros rep Hin. pose proof (Hcont _ p _ (f (r_val rep)) b rem c rc rep (Hwb _) Hg (Hgb _) (or_introl eq_refl) Ho Hin (r_ctx rep)). lia.
  - unfold seq_depthr. apply dbind_le; [pose proof (IH rem L Hrem (le_n _) c); lia|]. intros [o|e|rc] Ho; [|apply dret_le|].
    + destruct (Hinfo _ _ _ _ _ _ Hg Hi Ho) as (P & Hc & Hlang). cbv zeta.
      apply dbind_le; [|intros; apply dret_le].
      destruct (Nat.eq_dec (ok_pos o) i) as [Hp|Hp].
      * rewrite Hc, Hp, Nat.ltb_irrefl. rewrite Hp in Hlang. rewrite slice_nil in Hlang.
        assert (L2 : left_depth E r q) by (refine (left_sub E _ _ _ _ _ Hl _); intros d Hcl; eapply hd_seq_r; eauto).
        pose proof (Hsame _ _ b rem Hwb L2 Hgb Hrem (le_n _) (ok_ctx o)). lia.
      * assert (Hlt : Nat.ltb i (ok_pos o) = true) by (apply Nat.ltb_lt; lia). rewrite Hc, Hlt.
        pose proof (Hrun _ q b (ok_pos o) (Some ins) (ok_ctx o) Hwb Hgb ltac:(lia) oki ltac:(intros z [= <-]; lia)). lia.
    + apply continue_le. intros rep Hin. pose proof (Hcont _ p _ q b rem c rc rep Hwb Hg Hgb (or_introl eq_refl) Ho Hin (r_ctx rep)). lia.
  - apply dbind_le; [specialize (IHn c); lia|]. intros; apply dret_le.
  - (* many *)
    assert (HX : forall k b vs j c, i <= j <= len ->
      fst (many_depthr (dfull E n p) k b vs s j c ins) + (if Nat.eqb j i then 0 else 1) <= w - 1 + X).
    { assert (Hrest : forall j c, i < j <= len -> fst (dfull E n p s j c ins None) <= a + M * S R + K * units j None).
      { intros j c' Hj. apply IH0; auto; [apply left_any'; auto|lia]. }
      assert (HY : forall k b vs j c, i < j <= len -> fst (many_depthr (dfull E n p) k b vs s j c ins) <= a + M * S R + K * units j None).
      { induction k as [|k IHk]; intros b vs j c' Hj; [apply Nat.le_0_l|]. cbn [many_depthr]. apply dbind_le; [apply Hrest; auto|].
        assert (Hdown : forall b vs j' c', j < j' <= len -> fst (many_depthr (dfull E n p) k b vs s j' c' ins) + 1 <= a + M * S R + K * units j None).
        { intros b' vs' j' c'' Hj'. pose proof (IHk b' vs' j' c'' ltac:(lia)).
          assert (units j' None + 1 <= units j None) by (apply units_later; [lia|discriminate]).
          pose proof (later_le _ _ a H0). unfold DK in *. lia. }
        intros [o|e|rc] Ho; [|destruct (er_con e); apply dret_le|].
        - destruct (Hinfo _ _ _ _ _ _ Hg (proj2 Hj) Ho) as (P & Hc & _). destruct (ok_con o); [|apply dret_le].
          symmetry in Hc. apply Nat.ltb_lt in Hc. pose proof (Hdown true (vs ++ [ok_val o]) (ok_pos o) (ok_ctx o) ltac:(lia)). lia.
        - apply continue_le. intros rep Hin. destruct (Hrep _ _ _ _ _ _ _ Hg (proj2 Hj) okn Ho Hin) as (_ & J2 & J3 & _).
          specialize (J3 eq_refl). pose proof (Hdown false [] (r_pos rep) (r_ctx rep) ltac:(lia)). cbn [nest fst]. lia. }
      assert (HZ : forall k b vs j c, i < j <= len -> fst (many_depthr (dfull E n p) k b vs s j c ins) + 1 <= a + X).
      { intros k b vs j c' Hj. pose proof (HY k b vs j c' Hj).
        assert (units j None + 1 <= units i rem) by (apply units_later; [lia|discriminate]).
        pose proof (later_le _ _ a H0). unfold X. pose proof (Nat.le_0_l (M * r)). lia. }
      intros k b vs j c' Hj. destruct (Nat.eqb_spec j i) as [->|Hne]; [|pose proof (HZ k b vs j c' ltac:(lia)); lia].
      rewrite Nat.add_0_r. destruct k as [|k]; [apply Nat.le_0_l|]. cbn [many_depthr].
      apply dbind_le; [specialize (IHn c'); lia|]. intros [o|e|rc] Ho; [|destruct (er_con e); apply dret_le|].
      - destruct (Hinfo _ _ _ _ _ _ Hg Hi Ho) as (P & Hc & _). destruct (ok_con o); [|apply dret_le].
        symmetry in Hc. apply Nat.ltb_lt in Hc. pose proof (HZ k true (vs ++ [ok_val o]) (ok_pos o) (ok_ctx o) ltac:(lia)). lia.
      - apply continue_le. intros rep Hin. destruct (Hrep _ _ _ _ _ _ _ Hg Hi okn Ho Hin) as (_ & J2 & J3 & _).
        specialize (J3 eq_refl). pose proof (HZ k false [] (r_pos rep) (r_ctx rep) ltac:(lia)). cbn [nest fst]. lia. }
    pose proof (HX n false [] i c ltac:(lia)). rewrite Nat.eqb_refl in H. lia.
  - unfold attempt_depthr. destruct rem as [z|]; [specialize (IHr c); lia|].
    apply dbind_le; [pose proof (Hfast _ p a Hw L Hg c); lia|]. intros [o|e] _; apply dret_le.
  - apply dbind_le; [specialize (IHr c); lia|]. intros; apply dret_le.
  - apply dbind_le; [specialize (IHr c); lia|]. intros; apply dret_le.
  - unfold recover_with_depthr. destruct rem as [z|]; [|specialize (IHn c); lia].
    apply dbind_le; [specialize (IHr c); lia|]. intros; apply dret_le.
  - unfold recover_with_depthr. destruct rem as [z|]; [|specialize (IHn c); lia].
    apply dbind_le; [specialize (IHr c); lia|]. intros; apply dret_le.
  - unfold block_depthr. cbv zeta. apply dbind_le; [match goal with |- fst (dfull _ _ _ _ _ ?c _ _) <= _ => specialize (IHr c) end; lia|]. intros; apply dret_le.
  - unfold aligned_depthr. cbv zeta. destruct (Z.eqb _ _); [|apply dret_le].
    match goal with |- fst (dfull _ _ _ _ _ ?c _ _) <= _ => specialize (IHr c) end; lia.
  - unfold indented_depthr. cbv zeta. destruct (Z.eqb _ _); [|apply dret_le].
    apply dbind_le; [match goal with |- fst (dfull _ _ _ _ _ ?c _ _) <= _ => specialize (IHr c) end; lia|]. intros; apply dret_le.
  - destruct r as [|r]; [destruct (Hl d (hd_delay E d))|].
    pose proof (IH0 _ (E d) M r i c rem (HM d) (Hl d (hd_delay E d)) (HE d) Hi Hrem) as H. unfold X. lia.
Qed.
End FullDepth.
