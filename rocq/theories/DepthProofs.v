(** How deeply parse functions call each other: proofs. *)
From Verif Require Export Depth CostSpec Term CostProofs.

(** ** The depth does not change the results *)
Section Erase.
Context {T : Type}.
Definition derases {A} (p : pdepth T A) (q : pfast T A) : Prop := forall s pos c, snd (p s pos c) = q s pos c.
Lemma snd_dbind {A B} (m : dm A) (f : A -> dm B) x g : snd m = x -> (forall a, snd (f a) = g a) ->
  snd (dbind m f) = obind x g.
Proof. intros <- H. unfold dbind. destruct (snd m); simpl; auto. Qed.
Lemma dbind_eq {A B} (m : dm A) (f : A -> dm B) : dbind m f =
  match snd m with Ret a => (max (fst m) (fst (f a)), snd (f a)) | Raise e => (fst m, Raise e) | NoFuel => (fst m, NoFuel) end.
Proof. reflexivity. Qed.
Lemma snd_dbind_ret {A} (m : dm A) : snd (dbind m (fun a => dret (Ret a))) = snd m.
Proof. unfold dbind. destruct (snd m); reflexivity. Qed.
Lemma many_derases {A} (p : pdepth T A) q : derases p q -> forall n b vs s pos c,
  snd (many_depth p n b vs s pos c) = many_fast q n b vs s pos c.
Proof.
  intros H. induction n as [|n IH]; intros b vs s pos c; [reflexivity|]. simpl.
  apply snd_dbind; [apply H|]. intros [o|e]; [|destruct (er_con e); reflexivity].
  destruct (ok_con o); [apply IH|reflexivity].
Qed.
Context {V : nat -> Type}.
Variable E : env T V.
Theorem dfast_fast n : forall A (g : gram T V A), derases (dfast E n g) (fast E n g).
Proof.
  induction n as [|n IH]; intros A g s pos c; [reflexivity|].
  destruct g; try reflexivity; cbn [dfast fast nest snd].
  - unfold fmap_depth, fmap_fast. apply snd_dbind; [apply IH|reflexivity].
  - unfold alt_depth, alt_fast. apply snd_dbind; [apply IH|]. intros [o|e]; [reflexivity|].
    destruct (er_con e); [reflexivity|]. apply snd_dbind; [apply IH|]. intros b.
    destruct (sres_con b); [reflexivity|]. destruct b; reflexivity.
  - unfold bind_depth, bind_fast. apply snd_dbind; [apply IH|]. intros [o|e]; [|reflexivity].
    apply snd_dbind; [apply IH|reflexivity].
  - unfold seq_depth, seq_fast. apply snd_dbind; [apply IH|]. intros [o|e]; [|reflexivity].
    apply snd_dbind; [apply IH|reflexivity].
  - unfold maybe_depth, maybe_fast. apply snd_dbind; [apply IH|]. intros [o|e]; [reflexivity|].
    destruct (er_con e); reflexivity.
  - apply many_derases, IH.
  - unfold attempt_depth, attempt_fast. apply snd_dbind; [apply IH|]. intros [o|e]; reflexivity.
  - unfold label_depth, label_fast. apply snd_dbind; [apply IH|reflexivity].
  - apply IH.
  - apply IH.
  - apply IH.
  - unfold block_depth, block_fast. apply snd_dbind; [apply IH|reflexivity].
  - unfold aligned_depth, aligned_fast. destruct (Z.eqb _ _); [apply IH|reflexivity].
  - unfold indented_depth, indented_fast. destruct (Z.eqb _ _); [|reflexivity]. apply snd_dbind; [apply IH|reflexivity].
  - apply IH.
Qed.
End Erase.

(** ** Bounds *)
Section DepthBound.
Context {T : Type} {V : nat -> Type}.
Notation gram := (gram T V).
Variable E : env T V.
Lemma dbind_le {A B} (m : dm A) (f : A -> dm B) X : fst m <= X -> (forall a, snd m = Ret a -> fst (f a) <= X) ->
  fst (dbind m f) <= X.
Proof. intros H Hf. unfold dbind. destruct (snd m); cbn [fst]; auto. specialize (Hf a eq_refl). lia. Qed.
Lemma dret_le {A} (x : out A) X : fst (dret x) <= X.
Proof. cbn. lia. Qed.
Lemma nest_le {A} (m : dm A) X Y : fst m <= X -> X + 1 <= Y -> fst (nest m) <= Y.
Proof. cbn. lia. Qed.
Lemma size_pos A (g : gram A) n : size_le g n -> 1 <= n.
Proof. destruct g; simpl; auto; try (intros (a & _ & Hn); lia); intros (a & b & _ & _ & Hn); lia. Qed.

(** *** without Delay: a constant *)
Lemma many_depth_le {A} (p : pdepth T A) X s : (forall pos c, fst (p s pos c) <= X) ->
  forall n b vs pos c, fst (many_depth p n b vs s pos c) <= X.
Proof.
  intros H. induction n as [|n IH]; intros b vs pos c; [cbn; lia|]. cbn [many_depth]. apply dbind_le; auto.
  intros [o|e] _; [destruct (ok_con o); [apply IH|apply dret_le]|destruct (er_con e); apply dret_le].
Qed.
Lemma flat_depth n : forall A (g : gram A) w s i c, size_le g w -> no_delay g -> fst (dfast E n g s i c) <= w.
Proof.
  induction n as [|n IH]; intros A g w s i c Hw Hd; [cbn; lia|]. pose proof (size_pos _ _ _ Hw) as H1.
  destruct g as [A x|A f|A l| |test|teq x l|teq x l|A m|A B p f|A p q|A B p f|A B C p q merge|A p|A p|A p|A p x|A p|A p x l|A p fn lab|A p|A p|A delta p|d|A];
    cbn [dfast]; try (cbn; lia).
  all: try (destruct Hw as (a & Hw & Hn); destruct Hd as [_ Hd]; specialize (fun s i c => IH _ p a s i c Hw Hd)).
  all: try (destruct Hw as (a & b & Hw & Hwb & Hn); destruct Hd as (_ & Hd & Hdb);
    pose proof (fun s i c => IH _ p a s i c Hw Hd) as IHa).
  all: try (apply (nest_le _ (w - 1)); [|lia]).
  - apply dbind_le; [specialize (IH s i c); lia|]. intros; apply dret_le.
  - apply dbind_le; [specialize (IHa s i c); lia|]. intros [o|e] _; [apply dret_le|].
    destruct (er_con e); [apply dret_le|]. apply dbind_le; [pose proof (IH _ q b s i c Hwb Hdb); lia|].
    intros x _. destruct (sres_con x); [apply dret_le|]. destruct x; apply dret_le.
  - apply dbind_le; [specialize (IHa s i c); lia|]. intros [o|e] _; [|apply dret_le].
    apply dbind_le; [pose proof (IH _ (f (ok_val o)) b s (ok_pos o) (ok_ctx o) (Hwb _) (Hdb _)); lia|]. intros; apply dret_le.
  - apply dbind_le; [specialize (IHa s i c); lia|]. intros [o|e] _; [|apply dret_le].
    apply dbind_le; [pose proof (IH _ q b s (ok_pos o) (ok_ctx o) Hwb Hdb); lia|]. intros; apply dret_le.
  - apply dbind_le; [specialize (IH s i c); lia|]. intros [o|e] _; [apply dret_le|]. destruct (er_con e); apply dret_le.
  - apply many_depth_le. intros. specialize (IH s pos c0). lia.
  - apply dbind_le; [specialize (IH s i c); lia|]. intros [o|e] _; apply dret_le.
  - apply dbind_le; [specialize (IH s i c); lia|]. intros; apply dret_le.
  - specialize (IH s i c); lia.
  - specialize (IH s i c); lia.
  - specialize (IH s i c); lia.
  - unfold block_depth. cbv zeta. apply dbind_le; [match goal with |- fst (dfast _ _ _ ?s ?i ?c) <= _ => specialize (IH s i c) end; lia|]. intros; apply dret_le.
  - unfold aligned_depth. cbv zeta. destruct (Z.eqb _ _); [|apply dret_le].
    match goal with |- fst (dfast _ _ _ ?s ?i ?c) <= _ => specialize (IH s i c) end; lia.
  - unfold indented_depth. cbv zeta. destruct (Z.eqb _ _); [|apply dret_le].
    apply dbind_le; [match goal with |- fst (dfast _ _ _ ?s ?i ?c) <= _ => specialize (IH s i c) end; lia|]. intros; apply dret_le.
  - destruct Hd as [Hd _]. destruct Hd.
Qed.

(** *** with Delays: linear *)
Variable s : list T.
Notation len := (List.length s).
Hypothesis HE : wf_env E.
Variables M R : nat.
Hypothesis HM : forall d, size_le (E d) M.
Hypothesis HR : forall d, left_depth E R (E d).
Lemma left_any' A (g : gram A) : left_depth E (S R) g.
Proof. intros d _. apply HR. Qed.
Definition DK : nat := M * S R + 1.
Lemma fast_depth n : forall A (g : gram A) w r i c, size_le g w -> left_depth E r g -> wf g -> i <= len ->
  fst (dfast E n g s i c) <= w + M * r + DK * (len - i).
Proof.
  induction n as [|n IH0]; intros A g w r i c Hw Hl Hg Hi; [apply Nat.le_0_l|]. pose proof (size_pos _ _ _ Hw) as H1.
  assert (Hinfo : forall B (q : gram B) x c0 o, wf q -> x <= len -> snd (dfast E n q s x c0) = Ret (SOk o) ->
    x <= ok_pos o <= len /\ ok_con o = Nat.ltb x (ok_pos o) /\ lang E B q (map inl (slice s x (ok_pos o))) (ok_val o)).
  { intros B q x c0 o Hq Hx Ho. rewrite dfast_fast in Ho. apply (fast_info E s HE B q x c0 n (SOk o) Hq Hx Ho). }
  assert (Hlater : forall B (q : gram B) w j c, size_le q w -> wf q -> i < j <= len ->
    fst (dfast E n q s j c) <= w + M * r + DK * (len - i)).
  { intros B q w' j c' Hw' Hq Hj. pose proof (IH0 B q w' (S R) j c' Hw' (left_any' B q) Hq (proj2 Hj)) as H.
    assert (DK * (len - j) + DK <= DK * (len - i)).
    { replace (DK * (len - j) + DK) with (DK * (len - j + 1)) by lia. apply Nat.mul_le_mono_l. lia. }
    assert (M * S R <= DK) by (unfold DK; lia). nia. }
  set (X := M * r + DK * (len - i)) in *.
  assert (Hl' : forall B (q : gram B) w, size_le q w -> left_depth E r q -> wf q -> forall c, fst (dfast E n q s i c) <= w + X).
  { intros B q w' H2 H3 H4 c'. pose proof (IH0 B q w' r i c' H2 H3 H4 Hi). unfold X. lia. }
  assert (Hlater' : forall B (q : gram B) w j c, size_le q w -> wf q -> i < j <= len -> fst (dfast E n q s j c) <= w + X).
  { intros B q w' j c' H2 H3 H4. specialize (Hlater B q w' j c' H2 H3 H4). unfold X. lia. }
  clear Hlater.
  replace (w + M * r + DK * (len - i)) with (w + X) by (unfold X; lia).
  destruct g as [A x|A f|A l| |test|teq x l|teq x l|A m|A B p f|A p q|A B p f|A B C p q merge|A p|A p|A p|A p x|A p|A p x l|A p fn lab|A p|A p|A delta p|d|A];
    cbn [dfast]; try (cbn; lia).
  all: try (destruct Hw as (a & Hw & Hn); destruct Hg as [_ Hg];
    pose proof (fun Hl => Hl' _ p a Hw Hl Hg) as IH).
  all: try (destruct Hw as (a & b & Hw & Hwb & Hn); destruct Hg as (_ & Hg & Hgb);
    pose proof (fun Hl => Hl' _ p a Hw Hl Hg) as IH).
  all: try (apply (nest_le _ (w - 1 + X)); [|lia]).
  - assert (L : left_depth E r p) by (refine (left_sub E _ _ _ _ _ Hl _); intros d Hc; constructor; auto). specialize (IH L).
    apply dbind_le; [specialize (IH c); lia|]. intros; apply dret_le.
  - assert (L : left_depth E r p) by (refine (left_sub E _ _ _ _ _ Hl _); intros d Hc; apply hd_alt_l; auto). specialize (IH L).
    assert (L2 : left_depth E r q) by (refine (left_sub E _ _ _ _ _ Hl _); intros d Hc; apply hd_alt_r; auto).
    apply dbind_le; [specialize (IH c); lia|]. intros [o|e] _; [apply dret_le|].
    destruct (er_con e); [apply dret_le|]. apply dbind_le; [pose proof (Hl' _ q b Hwb L2 Hgb c); lia|].
    intros x _. destruct (sres_con x); [apply dret_le|]. destruct x; apply dret_le.
  - assert (L : left_depth E r p) by (refine (left_sub E _ _ _ _ _ Hl _); intros d Hc; apply hd_bind_l; auto). specialize (IH L).
    apply dbind_le; [specialize (IH c); lia|]. intros [o|e] Ho; [|apply dret_le].
    destruct (Hinfo _ _ _ _ _ Hg Hi Ho) as (P & Hc & Hlang).
    apply dbind_le; [|intros; apply dret_le].
    destruct (Nat.eq_dec (ok_pos o) i) as [Hp|Hp].
    + rewrite Hp in *. rewrite slice_nil in Hlang.
      assert (L2 : left_depth E r (f (ok_val o))) by (refine (left_sub E _ _ _ _ _ Hl _); intros d Hcl; eapply hd_bind_r; eauto).
      pose proof (Hl' _ _ b (Hwb _) L2 (Hgb _) (ok_ctx o)). lia.
    + pose proof (Hlater' _ (f (ok_val o)) b (ok_pos o) (ok_ctx o) (Hwb _) (Hgb _) ltac:(lia)). lia.
  - assert (L : left_depth E r p) by (refine (left_sub E _ _ _ _ _ Hl _); intros d Hc; apply hd_seq_l; auto). specialize (IH L).
    apply dbind_le; [specialize (IH c); lia|]. intros [o|e] Ho; [|apply dret_le].
    destruct (Hinfo _ _ _ _ _ Hg Hi Ho) as (P & Hc & Hlang).
    apply dbind_le; [|intros; apply dret_le].
    destruct (Nat.eq_dec (ok_pos o) i) as [Hp|Hp].
    + rewrite Hp in *. rewrite slice_nil in Hlang.
      assert (L2 : left_depth E r q) by (refine (left_sub E _ _ _ _ _ Hl _); intros d Hcl; eapply hd_seq_r; eauto).
      pose proof (Hl' _ _ b Hwb L2 Hgb (ok_ctx o)). lia.
    + pose proof (Hlater' _ q b (ok_pos o) (ok_ctx o) Hwb Hgb ltac:(lia)). lia.
  - assert (L : left_depth E r p) by (refine (left_sub E _ _ _ _ _ Hl _); intros d Hc; constructor; auto). specialize (IH L).
    apply dbind_le; [specialize (IH c); lia|]. intros [o|e] _; [apply dret_le|]. destruct (er_con e); apply dret_le.
  - assert (L : left_depth E r p) by (refine (left_sub E _ _ _ _ _ Hl _); intros d Hc; constructor; auto). specialize (IH L).
    assert (HX : forall k b vs j c, i <= j <= len -> fst (many_depth (dfast E n p) k b vs s j c) <= w - 1 + X).
    { induction k as [|k IHk]; intros b vs j c' Hj; [cbn; lia|]. cbn [many_depth]. apply dbind_le.
      - destruct (Nat.eq_dec j i) as [->|Hji]; [specialize (IH c'); lia|].
        pose proof (Hlater' _ p a j c' Hw Hg ltac:(lia)). lia.
      - intros [o|e] Ho; [|destruct (er_con e); apply dret_le]. destruct (ok_con o); [|apply dret_le].
        apply IHk. pose proof (proj1 (Hinfo _ _ _ _ _ Hg (proj2 Hj) Ho)). lia. }
    apply HX. lia.
  - assert (L : left_depth E r p) by (refine (left_sub E _ _ _ _ _ Hl _); intros d Hc; constructor; auto). specialize (IH L).
    apply dbind_le; [specialize (IH c); lia|]. intros [o|e] _; apply dret_le.
  - assert (L : left_depth E r p) by (refine (left_sub E _ _ _ _ _ Hl _); intros d Hc; constructor; auto). specialize (IH L).
    apply dbind_le; [specialize (IH c); lia|]. intros; apply dret_le.
  - assert (L : left_depth E r p) by (refine (left_sub E _ _ _ _ _ Hl _); intros d Hc; constructor; auto). specialize (IH L c). lia.
  - assert (L : left_depth E r p) by (refine (left_sub E _ _ _ _ _ Hl _); intros d Hc; constructor; auto). specialize (IH L c). lia.
  - assert (L : left_depth E r p) by (refine (left_sub E _ _ _ _ _ Hl _); intros d Hc; constructor; auto). specialize (IH L c). lia.
  - assert (L : left_depth E r p) by (refine (left_sub E _ _ _ _ _ Hl _); intros d Hc; constructor; auto). specialize (IH L).
    unfold block_depth. cbv zeta. apply dbind_le; [match goal with |- fst (dfast _ _ _ _ _ ?c) <= _ => specialize (IH c) end; lia|]. intros; apply dret_le.
  - assert (L : left_depth E r p) by (refine (left_sub E _ _ _ _ _ Hl _); intros d Hc; constructor; auto). specialize (IH L).
    unfold aligned_depth. cbv zeta. destruct (Z.eqb _ _); [|apply dret_le].
    match goal with |- fst (dfast _ _ _ _ _ ?c) <= _ => specialize (IH c) end; lia.
  - assert (L : left_depth E r p) by (refine (left_sub E _ _ _ _ _ Hl _); intros d Hc; constructor; auto). specialize (IH L).
    unfold indented_depth. cbv zeta. destruct (Z.eqb _ _); [|apply dret_le].
    apply dbind_le; [match goal with |- fst (dfast _ _ _ _ _ ?c) <= _ => specialize (IH c) end; lia|]. intros; apply dret_le.
  - destruct r as [|r]; [destruct (Hl d (hd_delay E d))|]. pose proof (IH0 _ (E d) M r i c (HM d) (Hl d (hd_delay E d)) (HE d) Hi) as H.
    unfold X. lia.
Qed.
End DepthBound.
