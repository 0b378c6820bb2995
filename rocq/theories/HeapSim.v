(** The heap semantics refines the functional one, combinator by combinator. *)
From Coq Require Import Permutation.
From Verif Require Export HeapProofs.

Section Sim.
Context {T : Type}.
Notation heap := (heap T).
Notation M := (M T).

Definition Qs {A} (h h' : heap) (x : hsres A) (y : sres T A) : Prop :=
  rd_s h' x = y /\ fresh_objects h h' (s_addrs x).
Definition Qf {A} (h h' : heap) (x : hres A) (y : res T A) : Prop :=
  rd h' x = y /\ fresh_objects h h' (addrs x).
Definition gs {A} (m : M (hsres A)) (o : out (sres T A)) : Prop := forall h, wp h (m h) o (Qs h).
Definition gf {A} (m : M (hres A)) (o : out (res T A)) : Prop := forall h, wp h (m h) o (Qf h).

Lemma wp_get {X Y} h0 (h : heap) a (k : cell T -> M X) (o : out Y) Q :
  wp h0 (k (h_cell h a) h) o Q -> wp h0 (bindM (get a) k h) o Q.
Proof. exact id. Qed.
Lemma wp_sub {X Y X' Y'} h0 h (m : M X) (o : out Y) (R : heap -> heap -> X -> Y -> Prop)
    (k : X -> M X') (k' : Y -> out Y') Q :
  (forall h, wp h (m h) o (R h)) -> extends h0 h ->
  (forall h1 x y, extends h h1 -> R h h1 x y -> wp h0 (k x h1) (k' y) Q) ->
  wp h0 (bindM m k h) (obind o k') Q.
Proof.
  intros Hm He K. unfold bindM. destruct (Hm h) as [H1 H2].
  destruct (m h) as [h1 [x|e|]]; simpl in *; destruct o as [y|e'|]; try tauto; simpl.
  - apply K; auto.
  - subst. split; [eapply extends_trans; eauto|reflexivity].
  - split; simpl; auto. eapply extends_trans; eauto.
Qed.
Lemma wp_bind' {X Y X' Y'} h0 h (m : M X) (o : out Y) (R : heap -> X -> Y -> Prop)
    (k : X -> M X') (k' : Y -> out Y') Q :
  extends h0 h -> wp h (m h) o R ->
  (forall h1 x y, extends h h1 -> R h1 x y -> wp h0 (k x h1) (k' y) Q) ->
  wp h0 (bindM m k h) (obind o k') Q.
Proof.
  intros He [H1 H2] K. unfold bindM.
  destruct (m h) as [h1 [x|e|]]; simpl in *; destruct o as [y|e'|]; try tauto; simpl.
  - apply K; auto.
  - subst. split; [eapply extends_trans; eauto|reflexivity].
  - split; simpl; auto. eapply extends_trans; eauto.
Qed.
(** the last call *)
Lemma wp_last {X Y} h0 h (m : M X) (o : out Y) (R : heap -> heap -> X -> Y -> Prop) (Q : heap -> X -> Y -> Prop) :
  (forall h, wp h (m h) o (R h)) -> extends h0 h ->
  (forall h1 x y, extends h h1 -> R h h1 x y -> Q h1 x y) ->
  wp h0 (m h) o Q.
Proof.
  intros Hm He K. apply (wp_base _ h); auto. eapply wp_weaken; [apply Hm|]. auto.
Qed.
Lemma wp_done {X Y} h0 h h' (m : M X) x (y : Y) (Q : heap -> X -> Y -> Prop) :
  m h = (h', Ret x) -> extends h0 h' -> Q h' x y -> wp h0 (m h) (Ret y) Q.
Proof. intros -> H1 H2. split; auto. Qed.
Lemma ext_cell (h h' : heap) a : extends h h' -> a < h_next h -> h_cell h' a = h_cell h a.
Proof. intros [_ H]. apply H. Qed.
Lemma ext_next (h h' : heap) : extends h h' -> h_next h <= h_next h'.
Proof. intros [H _]. exact H. Qed.
Lemma Qs_mono {A} h0 h h' (x : hsres A) y : extends h0 h -> Qs h h' x y -> Qs h0 h' x y.
Proof. intros [H _] [H1 H2]. split; auto. eapply fresh_weaken; eauto. Qed.
Lemma Qf_mono {A} h0 h h' (x : hres A) y : extends h0 h -> Qf h h' x y -> Qf h0 h' x y.
Proof. intros [H _] [H1 H2]. split; auto. eapply fresh_weaken; eauto. Qed.
Lemma gs_last {A} h0 h m (o : out (sres T A)) : gs m o -> extends h0 h -> wp h0 (m h) o (Qs h0).
Proof. intros H He. apply (wp_last _ _ _ _ Qs); auto. intros. eapply Qs_mono; eauto. Qed.
Lemma gf_last {A} h0 h m (o : out (res T A)) : gf m o -> extends h0 h -> wp h0 (m h) o (Qf h0).
Proof. intros H He. apply (wp_last _ _ _ _ Qf); auto. intros. eapply Qf_mono; eauto. Qed.

(** ** New objects *)
Lemma new_own (h : heap) c : h_cell (new_cell h c) (h_next h) = c.
Proof. simpl. rewrite Nat.eqb_refl. auto. Qed.
Lemma new_other (h : heap) c a : a < h_next h -> h_cell (new_cell h c) a = h_cell h a.
Proof. intros H. simpl. destruct (Nat.eqb_spec a (h_next h)); [lia|auto]. Qed.
Lemma fresh_one (h0 h : heap) c : extends h0 h -> fresh_objects h0 (new_cell h c) [h_next h].
Proof.
  intros [H _]. split; [repeat constructor; auto|]. intros a [<-|[]]. simpl. lia.
Qed.

Lemma s_ok_ok {A} h0 h (v : A) pos c x con : extends h0 h ->
  wp h0 (s_ok v pos c x con h) (Ret (SOk (Ok v pos c x con))) (Qs h0).
Proof.
  intros He. split; [apply extends_new; auto|]. split; simpl.
  - unfold rd_ok. simpl. rewrite Nat.eqb_refl. auto.
  - apply fresh_one; auto.
Qed.
Lemma s_err_ok {A} h0 h l x con : extends h0 h ->
  wp h0 (s_err (A:=A) l x con h) (Ret (SErr (Err l x con))) (Qs h0).
Proof.
  intros He. split; [apply extends_new; auto|]. split; simpl.
  - unfold rd_err. simpl. rewrite Nat.eqb_refl. auto.
  - apply fresh_one; auto.
Qed.
Lemma f_ok_ok {A} h0 h (v : A) pos c x con : extends h0 h ->
  wp h0 (f_ok v pos c x con h) (Ret (ROk (Ok v pos c x con))) (Qf h0).
Proof.
  intros He. split; [apply extends_new; auto|]. split; simpl.
  - unfold rd_ok. simpl. rewrite Nat.eqb_refl. auto.
  - apply fresh_one; auto.
Qed.
Lemma f_err_ok {A} h0 h l x con : extends h0 h ->
  wp h0 (f_err (A:=A) l x con h) (Ret (RErr (Err l x con))) (Qf h0).
Proof.
  intros He. split; [apply extends_new; auto|]. split; simpl.
  - unfold rd_err. simpl. rewrite Nat.eqb_refl. auto.
  - apply fresh_one; auto.
Qed.
Lemma reps_new {A} (h : heap) c (l : list (hrep A)) :
  (forall a, In a (flat_map rep_addrs l) -> a < h_next h) ->
  map (rd_rep (new_cell h c)) l = map (rd_rep h) l.
Proof. intros H. apply rd_reps_same. apply extends_same; auto. apply extends_new'. Qed.
Lemma f_rec_ok {A} h0 h (l : list (hrep A)) ys min lc x con : extends h0 h ->
  map (rd_rep h) l = ys -> fresh_objects h0 h (flat_map rep_addrs l) ->
  wp h0 (f_rec l min lc x con h) (Ret (RRec (Recd ys min lc x con))) (Qf h0).
Proof.
  intros He Hr Hf. unfold f_rec, new_rec, bindM, alloc, ret.
  split; [apply extends_new; auto|]. split; cbn [fst snd].
  - simpl rd. unfold rd_rec. cbn [hc_addr hc_reps hc_min hc_loc fst snd].
    rewrite new_own, reps_new, Hr; auto. intros a Ha. apply Hf; auto.
  - destruct Hf as [H1 H2]. destruct He as [He _]. split.
    + simpl. constructor; auto. intros K. apply H2 in K. simpl in K. lia.
    + simpl. intros a [<-|Ha]; [lia|]. apply H2 in Ha. lia.
Qed.

(** new repairs with one operation *)
Definition new_repair_ok {A} (m : M (hrep A)) (y : repair T A) : Prop :=
  forall h, exists h' p, m h = (h', Ret p) /\ extends h h' /\ rd_rep h' p = y /\
    fresh_objects h h' (rep_addrs p).
Lemma one_op_ok {A} o lc xo cost prio ins (v : A) pos c x con :
  new_repair_ok (o <~ new_op o lc xo false ;; new_rep cost prio ins [o] v pos c x con)
    (Repair cost prio ins [OpItem o lc xo false] v pos c x con).
Proof.
  intros h. do 2 eexists. split; [reflexivity|]. split; [|split].
  - apply extends_new, extends_new'.
  - unfold rd_rep, rd_op. simpl. rewrite Nat.eqb_refl.
    destruct (Nat.eqb_spec (h_next h) (S (h_next h))); [lia|]. auto.
  - split; simpl.
    + repeat constructor; simpl; auto. intros [H|[]]. lia.
    + intros a [<-|[<-|[]]]; lia.
Qed.

(** ** Primitives *)
Lemma fresh_s_ok {A} (o : out (sres T A)) : gs (h_fresh_s o) o.
Proof.
  intros h. unfold h_fresh_s. replace o with (x <- o ;; Ret x) at 2 by (destruct o; auto).
  apply wp_call; [apply extends_refl|]. intros [[]|[]] _; [apply s_ok_ok|apply s_err_ok]; apply extends_refl.
Qed.
Lemma fresh_f_ok {A} (o : out (sres T A)) : gf (h_fresh_f o) (omap sres_res o).
Proof.
  intros h. unfold h_fresh_f, omap. apply (wp_sub _ _ _ _ Qs); [apply fresh_s_ok|apply extends_refl|].
  intros h1 x y He [<- Hf]. apply wp_ret; auto. destruct x; split; auto.
Qed.

Lemma one_rep_fresh {A} (h h' : heap) (p : hrep A) : fresh_objects h h' (rep_addrs p) ->
  fresh_objects h h' (flat_map rep_addrs [p]).
Proof. simpl. rewrite app_nil_r. auto. Qed.
Lemma wp_rep {A X Y} h0 h (m : M (hrep A)) y (k : hrep A -> M X) (o : out Y) Q : new_repair_ok m y ->
  (forall h1 p, extends h h1 -> rd_rep h1 p = y -> fresh_objects h h1 (rep_addrs p) ->
     wp h0 (k p h1) o Q) ->
  wp h0 (bindM m k h) o Q.
Proof. intros Hm K. destruct (Hm h) as (h1 & p & E & H1 & H2 & H3). rewrite (bind_done _ _ _ _ _ E). auto. Qed.

Lemma eof_ok s pos c ins rem : gf (h_eof_full s pos c ins rem) (eof_full s pos c ins rem).
Proof.
  intros h. unfold h_eof_full, eof_full. destruct (Nat.eqb pos (List.length s)); [apply f_ok_ok, extends_refl|].
  destruct rem as [m|]; [|apply f_err_ok, extends_refl].
  eapply wp_rep; [apply one_op_ok|]. intros h1 p H1 H2 H3. apply f_rec_ok; auto.
  - simpl. rewrite H2. auto.
  - apply one_rep_fresh; auto.
Qed.
Lemma satisfy_ok test s pos c ins rem : gf (h_satisfy_full test s pos c ins rem) (satisfy_full test s pos c ins rem).
Proof.
  intros h. unfold h_satisfy_full, satisfy_full. apply wp_call; [apply extends_refl|].
  intros [t|] _; [apply f_ok_ok, extends_refl|]. destruct rem as [m|]; [|apply f_err_ok, extends_refl].
  apply wp_call; [apply extends_refl|]. intros [[cur t]|] _; [|apply f_err_ok, extends_refl].
  eapply wp_rep; [apply one_op_ok|]. intros h1 p H1 H2 H3. apply f_rec_ok; auto.
  - simpl. rewrite H2. auto.
  - apply one_rep_fresh; auto.
Qed.
Lemma regexp_ok {A} (m : list T -> nat -> option (nat * option A)) s pos c ins rem :
  gf (h_regexp_full m s pos c ins rem) (regexp_full m s pos c ins rem).
Proof.
  intros h. unfold h_regexp_full, regexp_full. destruct (probe_re m s pos) as [[e v]|]; [apply f_ok_ok, extends_refl|].
  destruct rem as [k|]; [|apply f_err_ok, extends_refl].
  apply wp_call; [apply extends_refl|]. intros [[cur [e v]]|] _; [|apply f_err_ok, extends_refl].
  eapply wp_rep; [apply one_op_ok|]. intros h1 p H1 H2 H3. apply f_rec_ok; auto.
  - simpl. rewrite H2. auto.
  - apply one_rep_fresh; auto.
Qed.
(** the insertion and the skip of sym and literal *)
Lemma insert_skip_ok {A X} (m ins : Z) (v : A) pos c l label (o : out (option (nat * X)))
    (fv : nat -> X -> A) (fp : nat -> X -> nat) (fc : nat -> X -> ctx T) :
  gf (reps <~ (if Z.eqb m 0 then ret []
               else p <~ h_make_insert m v pos c l label [label] ;; ret [p]) ;;
      r <~ call o ;;
      match r with
      | Some (cur, t) =>
          p <~ h_make_skip ins (fv cur t) (fp cur t) (fc cur t) l (cur - pos) [label] ;;
          f_rec (reps ++ [p]) (Some (cur - pos)) l [label] false
      | None => f_rec reps None l [label] false
      end)
     (let reps := if Z.eqb m 0 then [] else [make_insert m v pos c l label [label]] in
      r <- o ;;
      match r with
      | Some (cur, t) =>
          Ret (RRec (Recd (reps ++ [make_skip ins (fv cur t) (fp cur t) (fc cur t) l (cur - pos) [label]])
                 (Some (cur - pos)) l [label] false))
      | None => Ret (RRec (Recd reps None l [label] false))
      end).
Proof.
  intros h. cbv zeta.
  assert (K : exists h1 l1, (if Z.eqb m 0 then ret []
               else p <~ h_make_insert m v pos c l label [label] ;; ret [p]) h = (h1, Ret l1) /\
     extends h h1 /\ map (rd_rep h1) l1 = (if Z.eqb m 0 then [] else [make_insert m v pos c l label [label]]) /\
     fresh_objects h h1 (flat_map rep_addrs l1)).
  { destruct (Z.eqb m 0).
    - exists h, []. repeat split; auto; try apply extends_refl; try constructor; destruct H.
    - destruct (one_op_ok (Insert label) l [label] 1 None (m - 1)%Z v pos c [] true h) as (h1 & p & E & H1 & H2 & H3).
      exists h1, [p]. unfold h_make_insert. rewrite (bind_done _ _ _ _ _ E). split; [reflexivity|]. split; auto.
      split; [simpl; rewrite H2; auto|]. apply one_rep_fresh; auto. }
  destruct K as (h1 & l1 & E & H1 & H2 & H3). rewrite (bind_done _ _ _ _ _ E). rewrite <- H2.
  apply wp_call; auto. intros [[cur t]|] _.
  - eapply wp_rep; [apply one_op_ok|]. intros h2 p G1 G2 G3. apply f_rec_ok; [eapply extends_trans; eauto| |].
    + rewrite map_app. simpl. rewrite G2. f_equal. apply rd_reps_same, extends_same; auto.
      intros a Ha. apply H3; auto.
    + rewrite flat_map_app. cbn [flat_map]. rewrite app_nil_r. destruct H3 as [F1 F2], G3 as [F3 F4]. pose proof (ext_next _ _ H1). pose proof (ext_next _ _ G1).
      split.
      * apply NoDup_split. repeat split; auto. intros a Ha Hb. apply F2 in Ha. apply F4 in Hb. lia.
      * intros a Ha. apply in_app_iff in Ha as [Ha|Ha]; [apply F2 in Ha; lia|].
        apply F4 in Ha. lia.
  - apply f_rec_ok; auto.
Qed.
Lemma sym_ok teq x label s pos c ins rem : gf (h_sym_full teq x label s pos c ins rem) (sym_full teq x label s pos c ins rem).
Proof.
  intros h. unfold h_sym_full, sym_full. apply wp_call; [apply extends_refl|].
  intros [t|] _; [apply f_ok_ok, extends_refl|]. destruct rem as [m|]; [|apply f_err_ok, extends_refl].
  apply (insert_skip_ok m ins x pos c (get_loc c s pos) label (skip_search s pos (probe_sym teq x s))
    (fun _ t => t) (fun cur _ => cur + 1) (fun cur _ => update_loc c s (cur + 1)) h).
Qed.
Lemma literal_ok teq x label s pos c ins rem :
  gf (h_literal_full teq x label s pos c ins rem) (literal_full teq x label s pos c ins rem).
Proof.
  intros h. unfold h_literal_full, literal_full. destruct (starts_with teq x s pos); [apply f_ok_ok, extends_refl|].
  destruct rem as [m|]; [|apply f_err_ok, extends_refl].
  apply (insert_skip_ok m ins x pos c (get_loc c s pos) label (skip_search s pos (probe_lit teq x s))
    (fun _ _ => x) (fun cur _ => cur + List.length x) (fun cur _ => update_loc c s (cur + List.length x)) h).
Qed.

(** ** fmap: only allocates *)
Lemma op_addrs_map {A} (l : list (hrep A)) : op_addrs l = flat_map (map hp_addr) (map hr_ops l).
Proof. unfold op_addrs. induction l; simpl; auto. rewrite IHl. auto. Qed.
Lemma bindM_assoc {X Y Z} (m : M X) (k : X -> M Y) (k2 : Y -> M Z) h :
  bindM (bindM m k) k2 h = bindM m (fun x => bindM (k x) k2) h.
Proof. unfold bindM. destruct (m h) as [h1 [x|e|]]; auto. Qed.
Lemma obind_assoc {X Y Z} (m : out X) (k : X -> out Y) (k2 : Y -> out Z) :
  obind (obind m k) k2 = obind m (fun x => obind (k x) k2).
Proof. destruct m; auto. Qed.
Lemma mapH_fmap {A B} (f : A -> out B) l : forall h : heap,
  (forall a, In a (flat_map rep_addrs l) -> a < h_next h) ->
  wp h (mapH (h_rep_fmap f) l h) (mapM (rep_fmap f) (map (rd_rep h) l))
    (fun h' l' ys => map (rd_rep h') l' = ys /\ map hr_ops l' = map hr_ops l /\ NoDup (heads l') /\
       forall a, In a (heads l') -> h_next h <= a < h_next h').
Proof.
  induction l as [|r l IH]; intros h Hv; simpl.
  - apply wp_ret; [apply extends_refl|]. repeat split; auto; try constructor; destruct H.
  - unfold h_rep_fmap at 1, rep_fmap at 1.
    rewrite bindM_assoc.
    rewrite obind_assoc. apply wp_call; [apply extends_refl|]. intros v _. cbn [obind].
    set (c := h_cell h (hr_addr r)).
    set (h1 := new_cell h (Cell (c_prio c) (c_ctx c) (c_exp c) (c_con c))).
    set (p := HRep (hr_cost r) (hr_ins r) (hr_ops r) v (hr_pos r) (h_next h)).
    change (wp h (bindM (mapH (h_rep_fmap f) l) (fun ys => ret (p :: ys)) h1)
      (ys <- mapM (rep_fmap f) (map (rd_rep h) l);;
       Ret (Repair (r_cost (rd_rep h r)) (r_prio (rd_rep h r)) (r_ins (rd_rep h r)) (r_ops (rd_rep h r)) v (r_pos (rd_rep h r)) (r_ctx (rd_rep h r)) (r_exp (rd_rep h r)) (r_con (rd_rep h r)) :: ys))
      (fun h' l' ys => map (rd_rep h') l' = ys /\ map hr_ops l' = hr_ops r :: map hr_ops l /\ NoDup (heads l') /\
       forall a, In a (heads l') -> h_next h <= a < h_next h')).
    assert (He : extends h h1) by apply extends_new'.
    assert (Hl : map (rd_rep h1) l = map (rd_rep h) l).
    { apply reps_new. intros a Ha. apply Hv. simpl. right. apply in_or_app. auto. }
    assert (Hv1 : forall a, In a (flat_map rep_addrs l) -> a < h_next h1).
    { intros a Ha. simpl. enough (a < h_next h) by lia. apply Hv. simpl. right. apply in_or_app. auto. }
    specialize (IH h1 Hv1). rewrite Hl in IH.
    eapply wp_bind'; [exact He|exact IH|].
    intros h2 l' ys H0 (G1 & G2 & G3 & G4).
    apply wp_ret; [eapply extends_trans; eauto|].
    pose proof (ext_next _ _ H0) as N2. simpl in N2.
    split; [|split; [|split]].
    + simpl. f_equal; auto. unfold rd_rep. simpl.
      rewrite (ext_cell _ _ (h_next h) H0) by (simpl; lia). simpl. rewrite Nat.eqb_refl. simpl.
      f_equal. apply rd_ops_same. apply extends_same; [eapply extends_trans; eauto|].
      intros a Ha. apply Hv. simpl. right. apply in_or_app. auto.
    + simpl. f_equal. auto.
    + simpl. constructor; auto. intros K. apply G4 in K. simpl in K. lia.
    + simpl. intros a [<-|Ha]; [lia|]. apply G4 in Ha. simpl in Ha. lia.
Qed.

Definition Qm {A B} (h : heap) (x : hres A) (h' : heap) (x' : hres B) (y : res T B) : Prop :=
  rd h' x' = y /\ (forall h0, fresh_objects h0 h (addrs x) -> fresh_objects h0 h' (addrs x')) /\
  (forall a, In a (addrs x') -> a < h_next h').

Lemma h_fmap_wp {A B} (f : A -> out B) (x : hres A) h :
  (forall a, In a (addrs x) -> a < h_next h) -> wp h (h_fmap f x h) (res_fmap f (rd h x)) (Qm h x).
Proof.
  intros Hv. destruct x as [o|e|r].
  - simpl. unfold ok_fmap. rewrite obind_assoc. unfold h_ok_fmap. rewrite bindM_assoc.
    apply wp_call; [apply extends_refl|]. intros v _. cbn [obind].
    split; [apply extends_new'|]. split; [|split]; cbn.
    + unfold rd_ok. simpl. rewrite Nat.eqb_refl. auto.
    + intros h0 [H1 H2]. split; [repeat constructor; auto|]. intros a [<-|[]]. simpl.
      pose proof (H2 _ (or_introl eq_refl)) as K. simpl in K. lia.
    + intros a [<-|[]]. lia.
  - simpl. apply wp_ret; [apply extends_refl|]. split; auto.
  - simpl. unfold rec_fmap. rewrite obind_assoc. unfold h_rec_fmap. rewrite bindM_assoc.
    assert (Hv' : forall a, In a (flat_map rep_addrs (hc_reps r)) -> a < h_next h) by (intros; apply Hv; right; auto).
    eapply wp_bind'; [apply extends_refl|apply mapH_fmap; auto|].
    intros h1 l' ys He (G1 & G2 & G3 & G4). cbn [obind].
    pose proof (ext_next _ _ He) as N1.
    assert (Ho : op_addrs l' = op_addrs (hc_reps r)) by (rewrite !op_addrs_map, G2; auto).
    assert (Hl : forall a, In a (flat_map rep_addrs l') -> a < h_next h1).
    { intros a Ha. apply in_addrs in Ha as [Ha|Ha]; [apply G4 in Ha; lia|]. rewrite Ho in Ha.
      enough (a < h_next h) by lia. apply Hv'. apply in_addrs. auto. }
    split; [apply extends_new; auto|]. cbn [fst snd bindM get new_rec alloc ret].
    split; [|split].
    + simpl. unfold rd_rec. cbn [hc_addr hc_reps hc_min hc_loc]. rewrite new_own, reps_new, G1 by auto.
      rewrite (ext_cell _ _ _ He) by (apply Hv; left; auto). reflexivity.
    + intros h0 [H1 H2]. inversion H1 as [|? ? H3 H4]; subst. apply NoDup_addrs in H4 as (D1 & D2 & D3).
      assert (N0 : h_next h0 <= h_next h) by (pose proof (H2 _ (or_introl eq_refl)) as K; simpl in K; lia).
      split.
      * simpl. constructor; [intros K; apply Hl in K; simpl in K; lia|]. apply NoDup_addrs. cbn [hc_reps]. rewrite Ho. repeat split; auto.
        intros a Ha Hb. apply G4 in Ha. enough (a < h_next h) by lia. apply Hv'. apply in_addrs. auto.
      * simpl. intros a [<-|Ha]; [lia|]. pose proof (Hl a Ha). split; [|lia].
        apply in_addrs in Ha as [Ha|Ha]; [apply G4 in Ha; lia|]. apply H2. right. apply in_addrs. rewrite <- Ho. auto.
    + simpl. intros a [<-|Ha]; [lia|]. apply Hl in Ha. lia.
Qed.
Lemma hs_fmap_wp {A B} (f : A -> out B) (x : hsres A) h0 h :
  extends h0 h -> fresh_objects h0 h (s_addrs x) -> wp h0 (hs_fmap f x h) (sres_fmap f (rd_s h x)) (Qs h0).
Proof.
  intros He Hf. destruct x as [o|e].
  - simpl. unfold ok_fmap. rewrite obind_assoc. unfold h_ok_fmap. rewrite bindM_assoc.
    apply wp_call; auto. intros v _. cbn [obind].
    split; [apply extends_new; auto|]. split; cbn.
    + unfold rd_ok. simpl. rewrite Nat.eqb_refl. auto.
    + apply (fresh_one h0 h); auto.
  - simpl. apply wp_ret; auto. split; auto.
Qed.

(** ** continue_parse *)
Lemma iter_ops_prep x b (l : list hop) (h : heap) : NoDup (map hp_addr l) ->
  exists h', h_ops_prepend_expected l x b h = (h', Ret tt) /\ upds (map hp_addr l) (f_prep x b) h h'.
Proof.
  intros Hn. destruct (iter_upds _ _ (map hp_addr l) h (at_prepend_upd x b) Hn) as (h' & E & U).
  exists h'. rewrite iter_map in E. auto.
Qed.
(** copying operations *)
Lemma copy_ops (l : list hop) : forall h : heap, (forall a, In a (map hp_addr l) -> a < h_next h) ->
  exists h' l', mapH (fun i => c <~ get (hp_addr i) ;; new_op (hp_op i) (hp_loc i) (c_exp c) (c_con c)) l h
      = (h', Ret l') /\ extends h h' /\ map (rd_op h') l' = map (fun i => OpItem (op_op i) (op_loc i) (op_exp i) (op_con i)) (map (rd_op h) l) /\ fresh_objects h h' (map hp_addr l').
Proof.
  induction l as [|o l IH]; intros h Hv.
  - exists h, []. repeat split; auto; try constructor; destruct H.
  - set (c := h_cell h (hp_addr o)). set (h1 := new_cell h (Cell None no_ctx (c_exp c) (c_con c))).
    assert (He : extends h h1) by apply extends_new'.
    assert (Hv0 : forall a, In a (map hp_addr l) -> a < h_next h) by (intros; apply Hv; right; auto).
    destruct (IH h1) as (h2 & l' & E & H2 & H3 & H4).
    { intros a Ha. apply Hv0 in Ha. simpl. lia. }
    pose proof (ext_next _ _ H2) as N2. simpl in N2.
    exists h2, (HOp (hp_op o) (hp_loc o) (h_next h) :: l'). split; [|split; [|split]].
    + simpl. erewrite bind_done; [|reflexivity]. rewrite (bind_done _ _ _ _ _ E). reflexivity.
    + eapply extends_trans; eauto.
    + simpl. rewrite H3. f_equal.
      * unfold rd_op. simpl. rewrite (ext_cell _ _ (h_next h) H2) by (simpl; lia). unfold h1. rewrite new_own. auto.
      * f_equal. apply rd_ops_same, extends_same; auto.
    + destruct H4 as [D1 D2]. split; simpl.
      * constructor; auto. intros K. apply D2 in K. simpl in K. lia.
      * intros a [<-|Ha]; [lia|]. apply D2 in Ha. simpl in Ha. lia.
Qed.

Lemma cont_rec_ok {A B C} (merge : A -> B -> C) (r : hrep A) (rr : hrep B) (h : heap) :
  (forall a, In a (rep_addrs r) -> a < h_next h) -> (forall a, In a (rep_addrs rr) -> a < h_next h) ->
  NoDup (rep_addrs rr) -> (forall a, In a (rep_addrs r) -> In a (rep_addrs rr) -> False) ->
  exists h' p, h_cont_rec merge r rr h = (h', Ret p) /\ rd_rep h' p = cont_rec merge (rd_rep h r) (rd_rep h rr) /\ h_next h <= h_next h' /\ (forall a, a < h_next h -> ~ In a (map hp_addr (hr_ops rr)) -> h_cell h' a = h_cell h a) /\ NoDup (rep_addrs p) /\ (forall a, In a (rep_addrs p) -> In a (map hp_addr (hr_ops rr)) \/ h_next h <= a < h_next h').
Proof.
  intros Vr Vrr Nrr Drr.
  destruct (copy_ops (hr_ops r) h) as (h1 & ops & E1 & X1 & R1 & [D1 F1]).
  { intros a Ha. apply Vr. right; auto. }
  pose proof (ext_next _ _ X1) as N1.
  assert (Nops : NoDup (map hp_addr (hr_ops rr))) by (inversion Nrr; auto).
  destruct (iter_ops_prep (c_exp (h_cell h1 (hr_addr r))) (c_con (h_cell h1 (hr_addr r))) (hr_ops rr) h1 Nops)
    as (h2 & E2 & N2 & U2 & O2).
  assert (Cr : h_cell h1 (hr_addr r) = h_cell h (hr_addr r)) by (apply (ext_cell _ _ _ X1); apply Vr; left; auto).
  assert (Crr : h_cell h1 (hr_addr rr) = h_cell h (hr_addr rr)) by (apply (ext_cell _ _ _ X1); apply Vrr; left; auto).
  assert (Cr2 : h_cell h2 (hr_addr r) = h_cell h (hr_addr r)).
  { rewrite O2; auto. intros K. apply (Drr (hr_addr r)); [left|right]; auto. }
  assert (Crr2 : h_cell h2 (hr_addr rr) = h_cell h (hr_addr rr)).
  { rewrite O2; auto. intros K. inversion Nrr; subst. auto. }
  set (c := h_cell h (hr_addr r)) in *. set (cc := h_cell h (hr_addr rr)) in *.
  set (x := if c_con cc then c_exp cc else Append (c_exp c) (c_exp cc)).
  set (c3 := Cell (c_prio c) (c_ctx cc) x (c_con c || c_con cc)).
  set (p := HRep (hr_cost r + hr_cost rr) (hr_ins rr) (ops ++ hr_ops rr) (merge (hr_val r) (hr_val rr)) (hr_pos rr) (h_next h2)).
  assert (EE : h_cont_rec merge r rr h = (new_cell h2 c3, Ret p)).
  { unfold h_cont_rec. unfold bindM at 1. unfold get at 1. unfold h_join_ops.
    assert (EJ : bindM (mapH (fun i => c <~ get (hp_addr i) ;; new_op (hp_op i) (hp_loc i) (c_exp c) (c_con c)) (hr_ops r))
      (fun ops => c <~ get (hr_addr r) ;; u <~ h_ops_prepend_expected (hr_ops rr) (c_exp c) (c_con c) ;; ret (ops ++ hr_ops rr)) h
      = (h2, Ret (ops ++ hr_ops rr))).
    { rewrite (bind_done _ _ _ _ _ E1). unfold bindM at 1. unfold get. rewrite (bind_done _ _ _ _ _ E2). reflexivity. }
    rewrite (bind_done _ _ _ _ _ EJ). unfold bindM, get, h_append_expected. rewrite Crr2.
    unfold c3, x, p. destruct (c_con cc) eqn:Hcc.
    - unfold ret. rewrite Cr2, Crr2, Hcc. reflexivity.
    - unfold bindM, get, ret. rewrite Cr2, Crr2, Hcc. reflexivity. }
  exists (new_cell h2 c3), p. split; [exact EE|].
  split; [|split; [|split; [|split]]].
  - unfold rd_rep at 1. change (hr_addr p) with (h_next h2). rewrite new_own. unfold p, cont_rec, c3; simpl.
    unfold join_ops. simpl. fold c cc.
    f_equal. rewrite map_app. rewrite (rd_ops_same h2 _ ops), (rd_ops_same h2 _ (hr_ops rr)); try (apply extends_same; [apply extends_new'|]).
    + f_equal.
      * rewrite <- R1. apply rd_ops_same. intros a Ha. apply O2. intros K.
        pose proof (F1 a Ha). pose proof (Vrr a (or_intror K)). lia.
      * rewrite (ops_upd_prep (c_exp c) (c_con c) h1 h2).
        -- f_equal. apply rd_ops_same, extends_same; auto. intros a Ha. apply Vrr. right; auto.
        -- intros a Ha. rewrite U2 by auto. rewrite Cr. auto.
    + intros a Ha. pose proof (Vrr a (or_intror Ha)). lia.
    + intros a Ha. apply F1 in Ha. lia.
  - simpl. lia.
  - intros a Ha Hn. rewrite new_other by lia. rewrite O2 by auto. apply (ext_cell _ _ _ X1); auto.
  - unfold p, rep_addrs. simpl. rewrite map_app. constructor.
    + intros K. apply in_app_iff in K as [K|K]; [apply F1 in K; lia|]. pose proof (Vrr _ (or_intror K)). lia.
    + apply NoDup_split. repeat split; auto. intros a Ha Hb. apply F1 in Ha. pose proof (Vrr _ (or_intror Hb)). lia.
  - unfold p, rep_addrs. simpl. rewrite map_app. intros a [<-|Ha]; [right; lia|].
    apply in_app_iff in Ha as [Ha|Ha]; auto. apply F1 in Ha. right. lia.
Qed.

Lemma cont_recs_ok {A B C} (merge : A -> B -> C) (r : hrep A) l : forall h : heap,
  (forall a, In a (rep_addrs r) -> a < h_next h) ->
  (forall a, In a (flat_map rep_addrs l) -> a < h_next h) ->
  NoDup (flat_map rep_addrs l) -> (forall a, In a (rep_addrs r) -> In a (flat_map rep_addrs l) -> False) ->
  exists h' l', mapH (h_cont_rec merge r) l h = (h', Ret l') /\ map (rd_rep h') l' = map (cont_rec merge (rd_rep h r)) (map (rd_rep h) l) /\ h_next h <= h_next h' /\ (forall a, a < h_next h -> ~ In a (op_addrs l) -> h_cell h' a = h_cell h a) /\ NoDup (flat_map rep_addrs l') /\ (forall a, In a (flat_map rep_addrs l') -> In a (op_addrs l) \/ h_next h <= a < h_next h').
Proof.
  induction l as [|rr l IH]; intros h Vr Vl Nl Dl.
  - exists h, []. repeat split; auto; try constructor; destruct H.
  - simpl in Vl, Nl, Dl. change (hr_addr rr :: map hp_addr (hr_ops rr) ++ flat_map rep_addrs l)
      with (rep_addrs rr ++ flat_map rep_addrs l) in Nl.
    apply NoDup_split in Nl as (Nrr & Nl & Nd).
    assert (Vrr : forall a, In a (rep_addrs rr) -> a < h_next h).
    { intros a [Ha|Ha]; apply Vl; [left; auto|right; apply in_or_app; auto]. }
    assert (Vl' : forall a, In a (flat_map rep_addrs l) -> a < h_next h).
    { intros a Ha; apply Vl. right; apply in_or_app; auto. }
    destruct (cont_rec_ok merge r rr h) as (h1 & p & E1 & R1 & N1 & O1 & D1 & F1); auto.
    { intros a Ha [Hb|Hb]; apply (Dl a Ha); [left; auto|right; apply in_or_app; auto]. }
    assert (Sr : rd_rep h1 r = rd_rep h r).
    { apply rd_rep_same. intros a Ha. apply O1; auto. intros K. apply (Dl a Ha). right. apply in_or_app; auto. }
    assert (Sl : map (rd_rep h1) l = map (rd_rep h) l).
    { apply rd_reps_same. intros a Ha. apply O1; auto. intros K. apply (Nd a); auto. right; auto. }
    destruct (IH h1) as (h2 & l' & E2 & R2 & N2 & O2 & D2 & F2); auto.
    { intros a Ha. apply Vr in Ha. lia. }
    { intros a Ha. apply Vl' in Ha. lia. }
    { intros a Ha Hb. apply (Dl a Ha). right. apply in_or_app; auto. }
    assert (Ol : forall a, In a (op_addrs l) -> In a (flat_map rep_addrs l)) by (intros; apply in_addrs; auto).
    exists h2, (p :: l'). split; [|split; [|split; [|split; [|split]]]].
    + simpl. rewrite (bind_done _ _ _ _ _ E1), (bind_done _ _ _ _ _ E2). reflexivity.
    + simpl. rewrite R2, Sr, Sl. f_equal. rewrite <- R1. apply rd_rep_same. intros a Ha. apply O2.
      * destruct (F1 a Ha) as [K|K]; [|lia]. pose proof (Vrr a (or_intror K)). lia.
      * intros K. apply Ol in K. destruct (F1 a Ha) as [G|G]; [apply (Nd a); auto; right; auto|].
        apply Vl' in K. lia.
    + lia.
    + intros a Ha Hn. unfold op_addrs in Hn. simpl in Hn. rewrite in_app_iff in Hn.
      rewrite O2; [apply O1; auto; tauto|lia|]. unfold op_addrs. tauto.
    + change (flat_map rep_addrs (p :: l')) with (rep_addrs p ++ flat_map rep_addrs l').
      apply NoDup_split. repeat split; auto. intros a Ha Hb.
      destruct (F2 a Hb) as [K|K]; destruct (F1 a Ha) as [G|G].
      * apply (Nd a); [right; auto|apply Ol; auto].
      * apply Ol, Vl' in K. lia.
      * pose proof (Vrr a (or_intror G)). lia.
      * lia.
    + intros a Ha. change (flat_map rep_addrs (p :: l')) with (rep_addrs p ++ flat_map rep_addrs l') in Ha.
      unfold op_addrs. simpl. rewrite in_app_iff. apply in_app_iff in Ha as [Ha|Ha].
      * destruct (F1 a Ha); auto. right. lia.
      * destruct (F2 a Ha); auto. right. lia.
Qed.

Definition Ql {A B} (l : list (hrep A)) (h h' : heap) (l' : list (hrep B)) (ys : list (repair T B)) : Prop :=
  map (rd_rep h') l' = ys /\ NoDup (flat_map rep_addrs l') /\
  forall a, In a (flat_map rep_addrs l') -> In a (op_addrs l) \/ h_next h <= a < h_next h'.

Lemma cont_one_ok {A B C} ins (parse : A -> nat -> ctx T -> Z -> M (hres B)) parse'
    (merge : A -> B -> C) (r : hrep A) h :
  (forall v p c m, gf (parse v p c m) (parse' v p c m)) ->
  (forall a, In a (rep_addrs r) -> a < h_next h) -> NoDup (rep_addrs r) ->
  wp h (h_cont_one ins parse merge r h) (cont_one ins parse' merge (rd_rep h r)) (Ql [r] h).
Proof.
  intros Hp Vr Nr. unfold h_cont_one, cont_one. apply wp_get.
  apply (wp_sub _ _ _ _ Qf); [apply Hp|apply extends_refl|].
  intros h1 x y X1 [<- [D1 F1]]. pose proof (ext_next _ _ X1) as N1.
  assert (Cr : h_cell h1 (hr_addr r) = h_cell h (hr_addr r)) by (apply (ext_cell _ _ _ X1); apply Vr; left; auto).
  destruct x as [o|e|rb]; simpl.
  - set (c := h_cell h (hr_addr r)) in *. set (co := h_cell h1 (hk_addr o)).
    set (c3 := Cell (c_prio c) (c_ctx co) (if c_con co then c_exp co else Append (c_exp c) (c_exp co)) (c_con c || c_con co)).
    assert (EE : h_cont_one ins (fun _ _ _ _ => ret (HROk o)) merge r h1 = (new_cell h1 c3,
      Ret [HRep (hr_cost r) (if Nat.eqb (hr_pos r) (hk_pos o) then hr_ins r else ins) (hr_ops r)
             (merge (hr_val r) (hk_val o)) (hk_pos o) (h_next h1)])).
    { unfold h_cont_one, bindM, get, ret, h_append_expected. rewrite Cr. fold co. unfold c3.
      destruct (c_con co) eqn:Hco; unfold bindM, get, ret; rewrite ?Cr; reflexivity. }
    unfold h_cont_one in EE. unfold bindM at 1 in EE. unfold get at 1 in EE.
    erewrite bind_done in EE by reflexivity. cbv iota beta in EE.
    refine (wp_done _ _ _ _ _ _ _ EE _ _); [apply extends_new; auto|].
    split; [|split].
    + simpl. f_equal. unfold rd_rep at 1. cbn [hr_addr hr_cost hr_ins hr_ops hr_val hr_pos]. rewrite new_own.
      unfold cont_ok, append_expected, rd_rep, c3. simpl. fold c co. f_equal.
      rewrite (rd_ops_same h1); [apply rd_ops_same; apply extends_same; auto; intros a Ha; apply Vr; right; auto|].
      apply extends_same; [apply extends_new'|]. intros a Ha. enough (a < h_next h) by lia. apply Vr; right; auto.
    + simpl. rewrite app_nil_r. inversion Nr; subst. constructor; auto.
      intros K. pose proof (Vr _ (or_intror K)). lia.
    + simpl. rewrite !app_nil_r. intros a [<-|Ha]; [right; lia|left; auto].
  - apply wp_ret; auto. repeat split; auto; [constructor|intros a []].
  - inversion D1 as [|? ? D2 D3]; subst.
    destruct (cont_recs_ok merge r (hc_reps rb) h1) as (h2 & l' & E & R & N & O & D & F); auto.
    { intros a Ha. apply Vr in Ha. lia. }
    { intros a Ha. apply F1. right; auto. }
    { intros a Ha Hb. apply Vr in Ha. pose proof (F1 a (or_intror Hb)). lia. }
    assert (X2 : extends h h2).
    { split; [lia|]. intros a Ha. rewrite O; [apply (ext_cell _ _ _ X1); auto|lia|].
      intros K. assert (G : In a (flat_map rep_addrs (hc_reps rb))) by (apply in_addrs; auto).
      pose proof (F1 a (or_intror G)). lia. }
    refine (wp_done _ _ _ _ _ _ _ E _ _); auto. split; [|split]; auto.
    + rewrite R. f_equal. f_equal. apply rd_rep_same, extends_same; auto.
    + intros a Ha. right. destruct (F a Ha) as [K|K]; [|lia].
      assert (G : In a (flat_map rep_addrs (hc_reps rb))) by (apply in_addrs; auto).
      pose proof (F1 a (or_intror G)). lia.
Qed.

Lemma cont_loop_ok {A B C} ins (parse : A -> nat -> ctx T -> Z -> M (hres B)) parse'
    (merge : A -> B -> C) l : (forall v p c m, gf (parse v p c m) (parse' v p c m)) -> forall h,
  (forall a, In a (flat_map rep_addrs l) -> a < h_next h) -> NoDup (flat_map rep_addrs l) ->
  wp h (flat_mapH (h_cont_one ins parse merge) l h) (flat_mapM (cont_one ins parse' merge) (map (rd_rep h) l)) (Ql l h).
Proof.
  intros Hp. induction l as [|r l IH]; intros h Vl Nl.
  - apply wp_ret; [apply extends_refl|]. split; [reflexivity|split; [constructor|intros a []]].
  - change (flat_map rep_addrs (r :: l)) with (rep_addrs r ++ flat_map rep_addrs l) in Vl, Nl.
    apply NoDup_split in Nl as (Nr & Nl & Nd). cbn [flat_mapH flat_mapM map].
    assert (Vr : forall a, In a (rep_addrs r) -> a < h_next h) by (intros; apply Vl, in_or_app; auto).
    assert (Vl' : forall a, In a (flat_map rep_addrs l) -> a < h_next h) by (intros; apply Vl, in_or_app; auto).
    eapply wp_bind'; [apply extends_refl|apply cont_one_ok; eauto|].
    intros h1 l1 ys1 X1 (R1 & D1 & F1). pose proof (ext_next _ _ X1) as N1.
    assert (Sl : map (rd_rep h1) l = map (rd_rep h) l) by (apply rd_reps_same, extends_same; auto).
    rewrite <- Sl.
    eapply wp_bind'; [exact X1|apply IH; auto; intros a Ha; apply Vl' in Ha; lia|].
    intros h2 l2 ys2 X2 (R2 & D2 & F2). pose proof (ext_next _ _ X2) as N2.
    apply wp_ret; [eapply extends_trans; eauto|].
    assert (Or : forall a, In a (op_addrs [r]) -> In a (rep_addrs r)).
    { unfold op_addrs. simpl. intros a. rewrite app_nil_r. right; auto. }
    assert (Ol : forall a, In a (op_addrs l) -> In a (flat_map rep_addrs l)) by (intros; apply in_addrs; auto).
    assert (V1 : forall a, In a (flat_map rep_addrs l1) -> a < h_next h1).
    { intros a Ha. destruct (F1 a Ha) as [K|K]; [|lia]. apply Or, Vr in K. lia. }
    split; [|split].
    + rewrite map_app, R2. f_equal. rewrite <- R1. apply rd_reps_same, extends_same; auto.
    + rewrite flat_map_app. apply NoDup_split. repeat split; auto. intros a Ha Hb.
      destruct (F1 a Ha) as [K|K]; destruct (F2 a Hb) as [G|G].
      * apply (Nd a); auto.
      * apply Or, Vr in K. lia.
      * apply Ol, Vl' in G. lia.
      * lia.
    + intros a Ha. rewrite flat_map_app in Ha. change (op_addrs (r :: l)) with (map hp_addr (hr_ops r) ++ op_addrs l).
      rewrite in_app_iff. apply in_app_iff in Ha as [Ha|Ha].
      * destruct (F1 a Ha) as [K|K]; [|right; lia]. unfold op_addrs in K. simpl in K. rewrite app_nil_r in K. auto.
      * destruct (F2 a Ha) as [K|K]; auto. right; lia.
Qed.

Lemma continue_ok {A B C} ins (parse : A -> nat -> ctx T -> Z -> M (hres B)) parse'
    (merge : A -> B -> C) (ra : hrec A) h0 h :
  (forall v p c m, gf (parse v p c m) (parse' v p c m)) ->
  extends h0 h -> fresh_objects h0 h (addrs (HRRec ra)) ->
  wp h0 (h_continue ra ins parse merge h) (continue_parse (rd_rec h ra) ins parse' merge) (Qf h0).
Proof.
  intros Hp He [D F]. unfold h_continue, continue_parse. inversion D as [|? ? D1 D2]; subst.
  eapply wp_bind'; [exact He|apply cont_loop_ok; eauto; intros a Ha; apply F; right; auto|].
  intros h1 l ys X1 (R1 & D3 & F1). apply wp_get.
  assert (Ca : h_cell h1 (hc_addr ra) = h_cell h (hc_addr ra)) by (apply (ext_cell _ _ _ X1); apply F; left; auto).
  rewrite Ca. apply f_rec_ok; auto; [eapply extends_trans; eauto|].
  pose proof (ext_next _ _ X1). pose proof (ext_next _ _ He). split; auto.
  intros a Ha. destruct (F1 a Ha) as [K|K]; [|lia].
  assert (G : In a (flat_map rep_addrs (hc_reps ra))) by (apply in_addrs; auto).
  pose proof (F a (or_intror G)). simpl in *. lia.
Qed.

(** ** join_repairs *)
Lemma h_filter_ok {A} keep (l : list (hrep A)) (h : heap) :
  h_filter keep l h = (h, Ret (filter (fun r => keep (c_prio (h_cell h (hr_addr r)))) l)).
Proof.
  induction l as [|r l IH]; simpl; auto. unfold bindM at 1, get. unfold bindM. rewrite IH. unfold ret.
  destruct (keep _); auto.
Qed.
Lemma filter_rd {A} keep (l : list (hrep A)) (h : heap) :
  map (rd_rep h) (filter (fun r => keep (c_prio (h_cell h (hr_addr r)))) l) =
  filter (fun r => keep (r_prio r)) (map (rd_rep h) l).
Proof.
  induction l as [|r l IH]; simpl; auto. destruct (keep _); simpl; rewrite IH; auto.
Qed.
Lemma filter_addrs {A} f (l : list (hrep A)) : NoDup (flat_map rep_addrs l) ->
  NoDup (flat_map rep_addrs (filter f l)) /\
  forall a, In a (flat_map rep_addrs (filter f l)) -> In a (flat_map rep_addrs l).
Proof.
  assert (H : forall a, In a (flat_map rep_addrs (filter f l)) -> In a (flat_map rep_addrs l)).
  { intros a Ha. apply in_flat_map in Ha as (r & Hr & Ha). apply filter_In in Hr as [Hr _]. apply in_flat_map. eauto. }
  intros N. split; auto. clear H. revert N. induction l as [|r l IH]; simpl; [constructor|].
  change (NoDup (rep_addrs r ++ flat_map rep_addrs l) -> NoDup (flat_map rep_addrs (if f r then r :: filter f l else filter f l))).
  intros K. apply NoDup_split in K as (K1 & K2 & K3). destruct (f r); auto.
  change (NoDup (rep_addrs r ++ flat_map rep_addrs (filter f l))). apply NoDup_split. repeat split; auto.
  intros a Ha Hb. apply (K3 a Ha). apply in_flat_map in Hb as (r' & Hr' & Hb). apply filter_In in Hr' as [Hr' _].
  apply in_flat_map. eauto.
Qed.
Lemma join_ok {A} (ra rb : hrec A) (h0 h1 h : heap) : extends h0 h1 -> extends h1 h ->
  fresh_objects h0 h1 (addrs (HRRec ra)) -> fresh_objects h1 h (addrs (HRRec rb)) ->
  exists h' j, h_join_repairs ra rb h = (h', Ret j) /\ extends h0 h' /\
    rd_rec h' j = join_repairs (rd_rec h ra) (rd_rec h rb) /\ fresh_objects h0 h' (addrs (HRRec j)).
Proof.
  intros X0 X1 [Da Fa] [Db Fb].
  inversion Da as [|? ? Da1 Da2]; inversion Db as [|? ? Db1 Db2]; subst.
  pose proof (ext_next _ _ X0) as N0. pose proof (ext_next _ _ X1) as N1.
  assert (K : forall keep m x c lc, exists h' j,
    new_rec (hc_reps ra ++ filter (fun r => keep (c_prio (h_cell h (hr_addr r)))) (hc_reps rb)) m lc x c h = (h', Ret j) /\
    extends h0 h' /\ rd_rec h' j = Recd (map (rd_rep h) (hc_reps ra) ++ filter (fun r => keep (r_prio r)) (map (rd_rep h) (hc_reps rb))) m lc x c /\
    fresh_objects h0 h' (addrs (HRRec j))).
  { intros keep m x c lc.
    destruct (filter_addrs (fun r => keep (c_prio (h_cell h (hr_addr r)))) (hc_reps rb) Db2) as [G1 G2].
    assert (Y : map (rd_rep h) (hc_reps ra ++ filter (fun r => keep (c_prio (h_cell h (hr_addr r)))) (hc_reps rb))
      = map (rd_rep h) (hc_reps ra) ++ filter (fun r => keep (r_prio r)) (map (rd_rep h) (hc_reps rb))).
    { rewrite map_app. f_equal. apply filter_rd. }
    destruct (f_rec_ok h0 h (hc_reps ra ++ filter (fun r => keep (c_prio (h_cell h (hr_addr r)))) (hc_reps rb)) _ m lc x c
      (extends_trans _ _ _ X0 X1) Y) as [W1 W2].
    { rewrite flat_map_app. split.
      - apply NoDup_split. repeat split; auto. intros a Ha Hb. apply G2 in Hb.
        pose proof (Fa a (or_intror Ha)). pose proof (Fb a (or_intror Hb)). lia.
      - intros a Ha. apply in_app_iff in Ha as [Ha|Ha]; [pose proof (Fa a (or_intror Ha)); lia|].
        apply G2 in Ha. pose proof (Fb a (or_intror Ha)). lia. }
    do 2 eexists. split; [reflexivity|]. split; [exact W1|]. destruct W2 as [W2 W3].
    split; [|exact W3].
    exact (f_equal (fun r => match r with RRec x => x | _ => Recd [] None lc [] false end) W2). }
  unfold h_join_repairs, join_repairs. simpl.
  destruct (hc_min ra) as [mp|].
  - unfold bindM at 1. unfold bindM at 1. rewrite h_filter_ok. cbn [ret]. unfold bindM at 1, get at 1. cbn [fst snd].
    destruct (c_con (h_cell h (hc_addr ra))) eqn:Ha; [apply (K (fun p => match p with Some p => Nat.ltb p mp | None => false end))|].
    unfold bindM at 1, get at 1.
    destruct (c_con (h_cell h (hc_addr rb))) eqn:Hb; apply (K (fun p => match p with Some p => Nat.ltb p mp | None => false end)).
  - unfold bindM at 1. unfold bindM at 1. rewrite h_filter_ok. cbn [ret]. unfold bindM at 1, get at 1. cbn [fst snd].
    destruct (c_con (h_cell h (hc_addr ra))) eqn:Ha; [apply (K (fun p => match p with Some p => true | None => false end))|].
    unfold bindM at 1, get at 1.
    destruct (c_con (h_cell h (hc_addr rb))) eqn:Hb; apply (K (fun p => match p with Some p => true | None => false end)).
Qed.
End Sim.
