(** Property C71: threads *)
From Coq Require Import Lia.
From Verif Require Import Threads HeapRel HeapProofs HeapComb HeapSim PropsHeap Examples.
From Verif Require Import HeapGen Threads.

Section Mirror.
Context {T : Type}.
Notation heap := (heap T).
Notation cell := (cell T).

(** objects of a private heap, the corresponding ones in the shared heap, and
    whether the thread may write them *)
Definition world : Type := list (nat * nat * bool).
Definition own (w : world) (a b : nat) : Prop := In (a, b, true) w.
Definition acc (w : world) (a b : nat) : Prop := exists o, In (a, b, o) w.
Definition wok (w : world) (h : heap) : Prop :=
  NoDup (map (fun x => fst (fst x)) w) /\ NoDup (map (fun x => snd (fst x)) w) /\
  forall a b o, In (a, b, o) w -> a < h_next h.

(** whatever other threads do to objects that are not in the world: what is
    left of the thread ends like the run in the private heap [h] does ([fin]) *)
Inductive mirror {X Y} (R : world -> X -> Y -> Prop) (fin : heap * out X) : world -> heap -> prog T Y -> Prop :=
| mir_ret w h x y : fin = (h, Ret x) -> R w x y -> mirror R fin w h (PDone (Ret y))
| mir_raise w h e : fin = (h, Raise e) -> mirror R fin w h (PDone (Raise e))
| mir_fuel w h : fin = (h, NoFuel) -> mirror R fin w h (PDone NoFuel)
| mir_new w h c k :
    (forall b, ~ In b (map (fun x => snd (fst x)) w) -> mirror R fin ((h_next h, b, true) :: w) (new_cell h c) (k b)) ->
    mirror R fin w h (PNew c k)
| mir_get w h a b k : acc w a b -> mirror R fin w h (k (h_cell h a)) -> mirror R fin w h (PGet b k)
| mir_put w h a b c k : own w a b -> mirror R fin w (set_cell h a c) k -> mirror R fin w h (PPut b c k).

Definition relM (w : world) (X Y : Type) (R : world -> X -> Y -> Prop) (m : sM (heap_sem T) X) (p : sM (prog_sem T) Y) : Prop :=
  forall h, wok w h -> mirror R (m h) w h p.
Definition ext (w w' : world) : Prop := incl w w'.

Lemma wok_new w h c b : wok w h -> ~ In b (map (fun x => snd (fst x)) w) -> wok ((h_next h, b, true) :: w) (new_cell h c).
Proof.
  intros (N1 & N2 & L) F. split; [|split].
  - cbn. constructor; auto. intros I. apply in_map_iff in I as ([[a b'] o] & E & I). cbn in E. subst a. apply L in I. lia.
  - cbn. constructor; auto.
  - intros a b' o [I|I]; cbn; [injection I as <- _ _; lia|]. apply L in I. lia.
Qed.
Lemma mirror_bind X Y X' Y' (R : world -> X -> Y -> Prop) (R' : world -> X' -> Y' -> Prop) fin w h p (k1 : X -> Heap.M T X') k2 :
  wok w h -> mirror R fin w h p ->
  (forall w' x y, ext w w' -> R w' x y -> relM w' X' Y' R' (k1 x) (k2 y)) ->
  mirror R' (match fin with (h1, Ret x) => k1 x h1 | (h1, Raise e) => (h1, Raise e) | (h1, NoFuel) => (h1, NoFuel) end)
    w h (pbind p k2).
Proof.
  intros W H. revert W. induction H as [w h x y E HR|w h e E|w h E|w h c k H IH|w h a b k A H IH|w h a b c k O H IH]; intros W Hk; cbn [pbind].
  - subst fin. apply Hk; [apply incl_refl|exact HR|exact W].
  - subst fin. apply mir_raise. reflexivity.
  - subst fin. apply mir_fuel. reflexivity.
  - apply mir_new. intros b F. apply IH; [exact F|apply wok_new; auto|]. intros w' x y Ex. apply Hk. intros z Hz. apply Ex. right. exact Hz.
  - eapply mir_get; [exact A|]. apply IH; auto.
  - eapply mir_put; [exact O|]. apply IH; auto.
Qed.

Lemma rel_ret_i w X Y (R : world -> X -> Y -> Prop) x y : R w x y -> relM w X Y R (sret (heap_sem T) x) (sret (prog_sem T) y).
Proof. intros H h W. eapply mir_ret; [reflexivity|exact H]. Qed.
Lemma rel_call_i w X (R : world -> X -> X -> Prop) (o : out X) : (forall x, o = Ret x -> R w x x) ->
  relM w X X R (scall (heap_sem T) o) (scall (prog_sem T) o).
Proof.
  intros H h W. cbn. unfold Heap.call. destruct o as [x|e|].
  - eapply mir_ret; [reflexivity|apply H; reflexivity].
  - apply mir_raise. reflexivity.
  - apply mir_fuel. reflexivity.
Qed.
Lemma rel_bind_i w X Y X' Y' (R : world -> X -> Y -> Prop) (R' : world -> X' -> Y' -> Prop) p1 p2 k1 k2 : relM w X Y R p1 p2 ->
  (forall w' x y, ext w w' -> R w' x y -> relM w' X' Y' R' (k1 x) (k2 y)) ->
  relM w X' Y' R' (sbind (heap_sem T) p1 k1) (sbind (prog_sem T) p2 k2).
Proof. intros H Hk h W. cbn. unfold Heap.bindM. eapply mirror_bind; eauto. Qed.
Lemma rel_alloc_i w c : relM w nat nat own (salloc (heap_sem T) c) (salloc (prog_sem T) c).
Proof. intros h W. cbn. apply mir_new. intros b F. eapply mir_ret; [reflexivity|]. left. reflexivity. Qed.
Lemma rel_get_i w a b : acc w a b -> relM w _ _ (fun _ => eq) (sget (heap_sem T) a) (sget (prog_sem T) b).
Proof. intros A h W. cbn. eapply mir_get; [exact A|]. eapply mir_ret; reflexivity. Qed.
Lemma rel_put_i w a b c : own w a b -> relM w _ _ (fun _ => eq) (sput (heap_sem T) a c) (sput (prog_sem T) b c).
Proof. intros A h W. cbn. eapply mir_put; [exact A|]. eapply mir_ret; reflexivity. Qed.
Lemma own_mono w w' a b : ext w w' -> own w a b -> own w' a b.
Proof. intros E. apply E. Qed.
Lemma acc_mono w w' a b : ext w w' -> acc w a b -> acc w' a b.
Proof. intros E [o I]. exists o. apply E, I. Qed.
Lemma own_acc w a b : own w a b -> acc w a b.
Proof. intros I. exists true. exact I. Qed.

Lemma ext_refl_i w : ext w w.
Proof. apply incl_refl. Qed.
Lemma ext_trans_i u v w : ext u v -> ext v w -> ext u w.
Proof. apply incl_tran. Qed.

(** references to corresponding results *)
Fixpoint Rrefs (w : world) {G} : refs G -> refs G -> Prop :=
  match G return refs G -> refs G -> Prop with
  | [] => fun _ _ => True
  | A :: G => fun e1 e2 => Rp world acc w (fst e1) (fst e2) /\ Rrefs w (snd e1) (snd e2)
  end.
Lemma Rp_mono w w' A (r1 r2 : hpresult A) : ext w w' -> Rp world acc w r1 r2 -> Rp world acc w' r1 r2.
Proof. intros E [H1 H2]. split; auto. eapply (Rr_mono world ext acc); eauto. intros v v' a b Ev. apply acc_mono. exact Ev. Qed.
Lemma Rrefs_mono w w' G (e1 e2 : refs G) : ext w w' -> Rrefs w e1 e2 -> Rrefs w' e1 e2.
Proof. induction G as [|A G IH]; cbn; auto. intros E [H1 H2]. split; [eapply Rp_mono; eauto|auto]. Qed.
Lemma Rrefs_ref w G A (v : var G A) (e1 e2 : refs G) : Rrefs w e1 e2 -> Rp world acc w (ref v e1) (ref v e2).
Proof. induction v; cbn; intros [H1 H2]; auto. Qed.

Lemma code_mirror X G (p : client T X G) : forall w e1 e2, Rrefs w e1 e2 ->
  relM w X X (fun _ => eq) (code (heap_sem T) p e1) (code (prog_sem T) p e2).
Proof.
  induction p as [G o|G V A E n g s rec k getl fmt next IH|G A B v f next IH|G A v rec next IH]; intros w e1 e2 He; cbn [code].
  - apply rel_call_i. auto.
  - eapply rel_bind_i.
    + apply (rel_hparse (heap_sem T) (prog_sem T) world ext own acc relM ext_refl_i ext_trans_i own_mono own_acc rel_ret_i rel_call_i rel_bind_i rel_alloc_i rel_get_i rel_put_i).
    + intros w' x y Ex H. apply IH. split; cbn; [|eapply Rrefs_mono; eauto]. apply (Rp_own_acc world own acc own_acc). exact H.
  - eapply rel_bind_i.
    + apply (rel_presult_fmap (heap_sem T) (prog_sem T) world ext own acc relM ext_refl_i ext_trans_i acc_mono own_acc rel_ret_i rel_call_i rel_bind_i rel_alloc_i rel_get_i).
      apply Rrefs_ref, He.
    + intros w' x y Ex H. apply IH. split; cbn; [exact H|eapply Rrefs_mono; eauto].
  - eapply rel_bind_i.
    + apply (rel_unwrap (heap_sem T) (prog_sem T) world ext acc relM ext_refl_i ext_trans_i acc_mono rel_ret_i rel_bind_i rel_get_i).
      apply Rrefs_ref, He.
    + intros w' x y Ex H. cbv beta in H. subst y. apply IH. eapply Rrefs_mono; eauto.
Qed.

(** ** All threads together *)
(** at the start every thread sees the objects that exist, and owns none *)
Definition all_acc (n : nat) : world := map (fun a => (a, a, false)) (List.seq 0 n).
Lemma all_acc_in n a b q : In (a, b, q) (all_acc n) <-> a = b /\ q = false /\ a < n.
Proof.
  unfold all_acc. rewrite in_map_iff. split.
  - intros (x & E & I). apply in_seq in I. injection E as <- <- <-. repeat split; lia.
  - intros (-> & -> & L). exists b. split; [reflexivity|]. apply in_seq. lia.
Qed.
Definition follows {X} (H : heap) (w : world) (h : heap) (p : prog T X) (o : out X) : Prop :=
  wok w h /\ (forall a b q, In (a, b, q) w -> h_cell H b = h_cell h a /\ b < h_next H) /\
  exists fin, snd fin = o /\ mirror (fun _ => eq) fin w h p.
Definition consistent {X} (H0 : heap) (st : heap * pool T X) (os : nat -> out X) : Prop :=
  extends H0 (fst st) /\
  exists (ws : nat -> world) (hs : nat -> heap),
    (forall i, follows (fst st) (ws i) (hs i) (snd st i) (os i)) /\
    (forall i, incl (all_acc (h_next H0)) (ws i)) /\
    (forall i j a b a' q, i <> j -> In (a, b, true) (ws i) -> In (a', b, q) (ws j) -> False).

Lemma in_snd (w : world) a b q : In (a, b, q) w -> In b (map (fun x => snd (fst x)) w).
Proof. intros I. apply in_map_iff. exists (a, b, q). auto. Qed.
Lemma nodup_fst (w : world) a b q b' q' : NoDup (map (fun x => fst (fst x)) w) -> In (a, b, q) w -> In (a, b', q') w -> b = b'.
Proof.
  induction w as [|[[x y] z] w IH]; cbn; [contradiction|]. intros N I J. inversion N as [|? ? N1 N2]; subst.
  assert (F : forall b q, In (a, b, q) w -> In a (map (fun x => fst (fst x)) w)) by (intros b0 q0 K; apply in_map_iff; exists (a, b0, q0); auto).
  destruct I as [I|I], J as [J|J].
  - congruence.
  - injection I as -> -> ->. destruct N1. eauto.
  - injection J as -> -> ->. destruct N1. eauto.
  - auto.
Qed.
Lemma nodup_snd (w : world) a b q a' q' : NoDup (map (fun x => snd (fst x)) w) -> In (a, b, q) w -> In (a', b, q') w -> a = a' /\ q = q'.
Proof.
  induction w as [|[[x y] z] w IH]; cbn; [contradiction|]. intros N I J. inversion N as [|? ? N1 N2]; subst.
  destruct I as [I|I], J as [J|J].
  - split; congruence.
  - injection I as -> -> ->. destruct N1. eapply in_snd; eauto.
  - injection J as -> -> ->. destruct N1. eapply in_snd; eauto.
  - auto.
Qed.

Lemma follows_other X (H H' : heap) w h (p : prog T X) o : follows H w h p o -> h_next H <= h_next H' ->
  (forall a b q, In (a, b, q) w -> h_cell H' b = h_cell H b) -> follows H' w h p o.
Proof.
  intros (W & A & F) L E. split; [exact W|]. split; [|exact F]. intros a b q I. destruct (A _ _ _ I) as [A1 A2]. rewrite (E _ _ _ I). split; [auto|lia].
Qed.
Lemma step_consistent X H0 (st : heap * pool T X) os i : consistent H0 st os -> consistent H0 (step1 st i) os.
Proof.
  destruct st as [H ts]. intros (X0 & ws & hs & F & B & D). cbn [fst snd] in *. unfold step1.
  pose proof (F i) as (W & A & fin & Eo & M).
  destruct (ts i) as [o|c k|b k|b c k] eqn:Q.
  - split; [exact X0|]. exists ws, hs. auto.
  - (* allocation *)
    inversion M as [| | |? ? ? ? M'| |]; subst.
    assert (Fr : ~ In (h_next H) (map (fun x => snd (fst x)) (ws i))).
    { intros I. apply in_map_iff in I as ([[a b] q] & E & I). cbn in E. subst b. destruct (A _ _ _ I). lia. }
    split; [apply extends_new, X0|].
    exists (fun j => if Nat.eqb j i then (h_next (hs i), h_next H, true) :: ws i else ws j),
           (fun j => if Nat.eqb j i then new_cell (hs i) c else hs j). cbn [fst snd]. split; [|split].
    + intros j. unfold set_thread. destruct (Nat.eqb_spec j i) as [->|Nj].
      * split; [apply wok_new; auto|]. split; [|exists fin; split; auto]. intros a b q [I|I].
        -- injection I as <- <- <-. cbn. rewrite !Nat.eqb_refl. split; [reflexivity|lia].
        -- destruct (A _ _ _ I) as [A1 A2]. destruct W as (_ & _ & L). specialize (L _ _ _ I). cbn.
           destruct (Nat.eqb_spec b (h_next H)); [lia|]. destruct (Nat.eqb_spec a (h_next (hs i))); [lia|]. split; [auto|lia].
      * eapply follows_other; [apply F|cbn; lia|]. intros a b q I. destruct (F j) as (_ & A' & _). destruct (A' _ _ _ I). cbn.
        destruct (Nat.eqb_spec b (h_next H)); [lia|reflexivity].
    + intros j. cbv beta. destruct (Nat.eqb_spec j i) as [->|Nj]; [|apply B]. intros z Hz. right. apply B, Hz.
    + intros j k' a b a' q Njk I J.
      destruct (Nat.eqb_spec j i) as [->|Nj], (Nat.eqb_spec k' i) as [->|Nk]; cbv beta iota in I, J; [congruence|..].
      * destruct I as [I|I]; [|exact (D _ _ _ _ _ _ Njk I J)]. injection I as _ <-. destruct (F k') as (_ & A' & _). destruct (A' _ _ _ J). lia.
      * destruct J as [J|J]; [|exact (D _ _ _ _ _ _ Njk I J)]. injection J as _ <- _. destruct (F j) as (_ & A' & _). destruct (A' _ _ _ I). lia.
      * exact (D _ _ _ _ _ _ Njk I J).
  - (* reading *)
    inversion M as [| | | |? ? a ? ? [q I] M'|]; subst. split; [exact X0|]. exists ws, hs. cbn [fst snd]. split; [|split; [exact B|exact D]].
    intros j. unfold set_thread. destruct (Nat.eqb_spec j i) as [->|Nj]; [|apply F]. split; [exact W|]. split; [exact A|].
    exists fin. split; auto. destruct (A _ _ _ I) as [-> _]. exact M'.
  - (* writing *)
    inversion M as [| | | | |? ? a ? ? ? I M']; subst. pose proof W as (N1 & N2 & L).
    split.
    { destruct X0 as [X1 X2]. split; cbn [fst h_next set_cell]; [exact X1|]. intros x Hx. cbn. destruct (Nat.eqb_spec x b) as [->|]; [|apply X2, Hx].
      assert (K : In (b, b, false) (ws i)) by (apply B, all_acc_in; auto). destruct (nodup_snd _ _ _ _ _ _ N2 K I) as [_ K2]. discriminate. }
    exists ws, (fun j => if Nat.eqb j i then set_cell (hs i) a c else hs j). cbn [fst snd]. split; [|split; [exact B|exact D]].
    intros j. unfold set_thread. destruct (Nat.eqb_spec j i) as [->|Nj].
    + split; [exact W|]. split; [|exists fin; split; auto]. intros a' b' q' I'. destruct (A _ _ _ I') as [A1 A2]. cbn. split; [|exact A2].
      destruct (Nat.eqb_spec b' b) as [->|Nb].
      * destruct (nodup_snd _ _ _ _ _ _ N2 I' I) as [-> _]. rewrite Nat.eqb_refl. reflexivity.
      * destruct (Nat.eqb_spec a' a) as [->|Na]; [|exact A1]. destruct Nb. eapply nodup_fst; eauto.
    + eapply follows_other; [apply F|cbn; lia|]. intros a' b' q' I'. cbn. destruct (Nat.eqb_spec b' b) as [->|Nb]; [|reflexivity].
      exfalso. eapply D; [|exact I|exact I']. auto.
Qed.
Lemma run_consistent X H0 sched : forall (st : heap * pool T X) os, consistent H0 st os -> consistent H0 (run_threads st sched) os.
Proof. induction sched as [|i l IH]; cbn; intros st os H; auto. apply IH, step_consistent, H. Qed.
Lemma consistent_done X H0 (st : heap * pool T X) os i o : consistent H0 st os -> snd st i = PDone o -> o = os i.
Proof.
  intros (_ & ws & hs & F & _) E. destruct (F i) as (_ & _ & fin & <- & M). rewrite E in M.
  inversion M; subst; try match goal with H : _ = fin |- _ => rewrite <- H end; try match goal with H : fin = _ |- _ => rewrite H end; reflexivity.
Qed.

Lemma acc_reps (h : heap) A (l : list (hrep A)) : (forall a, In a (flat_map rep_addrs l) -> a < h_next h) ->
  Forall2 (Rrep world acc (all_acc (h_next h))) l l.
Proof.
  assert (P : forall a, a < h_next h -> acc (all_acc (h_next h)) a a) by (intros a L; exists false; apply all_acc_in; auto).
  intros H. induction l as [|r l IH]; constructor.
  - repeat split; auto.
    + assert (K : forall a, In a (map hp_addr (hr_ops r)) -> a < h_next h) by (intros a I; apply H; cbn; right; apply in_or_app; auto).
      clear -P K. induction (hr_ops r) as [|o os IHo]; constructor; [repeat split; apply P, K; left; auto|]. apply IHo. intros. apply K. right. auto.
    + apply P, H. left. reflexivity.
  - apply IH. intros a I. apply H. cbn. right. apply in_or_app. auto.
Qed.
Lemma acc_refs (h : heap) G (e : refs G) : existing h e -> Rrefs (all_acc (h_next h)) e e.
Proof.
  assert (P : forall a, a < h_next h -> acc (all_acc (h_next h)) a a) by (intros a L; exists false; apply all_acc_in; auto).
  induction G as [|A G IH]; cbn; auto. intros [H1 H2]. split; [|auto]. split; [|reflexivity].
  destruct (hpr_result (fst e)) as [o|x|r]; cbn in *; repeat split; auto. apply acc_reps. auto.
Qed.
Lemma start_consistent X (H : heap) (G : nat -> list Type) (ps : forall i, client T X (G i)) (es : forall i, refs (G i)) :
  (forall i, existing H (es i)) ->
  consistent H (H, fun i => code (prog_sem T) (ps i) (es i)) (fun i => snd (code (heap_sem T) (ps i) (es i) H)).
Proof.
  intros He. split; [apply extends_refl|]. exists (fun _ => all_acc (h_next H)), (fun _ => H). cbn [fst snd]. split; [|split; [intros; apply incl_refl|]].
  - intros i. assert (W : wok (all_acc (h_next H)) H).
    { split; [|split].
      - unfold all_acc. rewrite map_map. cbn. rewrite map_id. apply seq_NoDup.
      - unfold all_acc. rewrite map_map. cbn. rewrite map_id. apply seq_NoDup.
      - intros a b q I. apply all_acc_in in I. lia. }
    split; [exact W|]. split.
    + intros a b q I. apply all_acc_in in I as (-> & -> & L). auto.
    + exists (code (heap_sem T) (ps i) (es i) H). split; [reflexivity|]. apply code_mirror; [|exact W]. apply acc_refs, He.
  - intros i j a b a' q _ I _. apply all_acc_in in I as (_ & K & _). discriminate.
Qed.

(** ** A thread that runs alone returns what the immutable model says *)
Lemma existing_mono (h h' : heap) G (e : refs G) : extends h h' -> existing h e -> existing h' e.
Proof. intros [L _]. induction G as [|A G IH]; cbn; auto. intros [H1 H2]. split; auto. intros a I. apply H1 in I. lia. Qed.
Lemma read_same (h h' : heap) G (e : refs G) : extends h h' -> existing h e -> read h' e = read h e.
Proof.
  intros X. induction G as [|A G IH]; cbn; auto. intros [H1 H2]. rewrite IH by auto. f_equal.
  unfold rd_p. f_equal. apply rd_same, extends_same; auto.
Qed.
Lemma read_value (h : heap) G A (v : var G A) (e : refs G) : value v (read h e) = rd_p h (ref v e).
Proof. induction v; cbn; auto. Qed.
Lemma ref_valid (h : heap) G A (v : var G A) (e : refs G) : existing h e -> valid h (ref v e).
Proof. induction v; cbn; intros [H1 H2]; [exact H1|auto]. Qed.
Lemma code_alone X G (p : client T X G) : forall (h : heap) e, existing h e ->
  snd (code (heap_sem T) p e h) = alone p (read h e).
Proof.
  induction p as [G o|G V A E n g s rec k getl fmt next IH|G A B v f next IH|G A v rec next IH]; intros h e He; cbn [code alone].
  - reflexivity.
  - change (HeapGen.hparse (heap_sem T) E n g s rec k getl fmt) with (Heap.hparse E n g s rec k getl fmt).
    cbn. unfold Heap.bindM. rewrite <- (C36_parse_functional E n g s rec k getl fmt h). pose proof (C36_frame E n g s rec k getl fmt h) as X1.
    destruct (Heap.hparse E n g s rec k getl fmt h) as [h1 [r|x|]] eqn:Q; cbn in *; auto.
    rewrite IH; cbn.
    + rewrite (read_same h h1) by auto. reflexivity.
    + split; [|eapply existing_mono; eauto]. intros a I. apply C36_no_sharing in Q as [_ Q]. apply Q in I. lia.
  - change (HeapGen.hpresult_fmap (heap_sem T) f (ref v e)) with (Heap.hpresult_fmap (T := T) f (ref v e)).
    cbn. unfold Heap.bindM. rewrite read_value. pose proof (ref_valid h _ _ v e He) as Hv.
    destruct (C36_fmap_functional f (ref v e) h Hv) as [X1 K]. rewrite <- K.
    destruct (Heap.hpresult_fmap f (ref v e) h) as [h1 [r|x|]] eqn:Q; cbn in *; auto.
    rewrite IH; cbn.
    + rewrite (read_same h h1) by auto. reflexivity.
    + split; [|eapply existing_mono; eauto]. exact (fmap_valid f _ _ _ _ Hv Q).
  - change (HeapGen.hunwrap (heap_sem T) (ref v e) rec) with (Heap.hunwrap (T := T) (ref v e) rec).
    cbn. unfold Heap.bindM. rewrite C36_unwrap_functional. rewrite read_value. apply IH. exact He.
Qed.

(** ** C71 *)
Section Pool.
Context {X : Type} (H : heap) (G : nat -> list Type).
Variable ps : forall i, client T X (G i).
Variable es : forall i, refs (G i).
Hypothesis He : forall i, existing H (es i).
Notation start := (H, fun i => code (prog_sem T) (ps i) (es i)).

(** Whatever the schedule, a thread that is done has returned or raised what it
    would have alone, as the immutable model says. *)
Theorem C71_threads : forall schedule i o,
  snd (run_threads start schedule) i = PDone o -> o = alone (ps i) (read H (es i)).
Proof using He.
  intros schedule i o E. pose proof (run_consistent _ H schedule _ _ (start_consistent X H G ps es He)) as K.
  rewrite (consistent_done _ _ _ _ _ _ K E). cbv beta. apply code_alone, He.
Qed.
(** No object that existed before the threads were started has changed, so every
    result reads as before. *)
Theorem C71_results_unchanged : forall schedule,
  extends H (fst (run_threads start schedule)) /\
  forall G' (e : refs G'), existing H e -> read (fst (run_threads start schedule)) e = read H e.
Proof using He.
  intros schedule. pose proof (run_consistent _ H schedule _ _ (start_consistent X H G ps es He)) as [K _].
  split; [exact K|]. intros G' e. apply read_same, K.
Qed.
End Pool.

(** Every thread that is scheduled again and again is done at some time. *)
Lemma run_upto_split X (st : heap * pool T X) sched t u :
  run_upto st sched (t + u) = run_upto (run_upto st sched t) (fun x => sched (t + x)) u.
Proof. induction u as [|u IH]; [rewrite Nat.add_0_r; reflexivity|]. rewrite Nat.add_succ_r. cbn. rewrite IH. reflexivity. Qed.
Lemma step_other X (st : heap * pool T X) i j : i <> j -> snd (step1 st j) i = snd st i.
Proof.
  intros N. destruct st as [H ts]. unfold step1. cbn [snd]. assert (E : Nat.eqb i j = false) by (apply Nat.eqb_neq; exact N).
  destruct (ts j); cbn [snd]; unfold set_thread; rewrite ?E; reflexivity.
Qed.
Lemma run_other X u : forall (st : heap * pool T X) i sched, (forall x, x < u -> sched x <> i) -> snd (run_upto st sched u) i = snd st i.
Proof.
  induction u as [|u IH]; intros st i sched Hs; cbn [run_upto]; [reflexivity|]. rewrite step_other by (intros E; apply (Hs u); auto).
  apply IH. intros x L. apply Hs. lia.
Qed.
Lemma first_turn (sched : nat -> nat) i n : sched n = i -> exists m, m <= n /\ sched m = i /\ forall x, x < m -> sched x <> i.
Proof.
  induction n as [n IH] using lt_wf_ind. intros E.
  destruct (List.existsb (fun x => Nat.eqb (sched x) i) (List.seq 0 n)) eqn:Q.
  - apply existsb_exists in Q as (x & I & Ex). apply in_seq in I. apply Nat.eqb_eq in Ex. destruct (IH x ltac:(lia) Ex) as (m & L & Hm). exists m. split; [lia|exact Hm].
  - exists n. repeat split; auto. intros x L Ex. assert (K : existsb (fun x => Nat.eqb (sched x) i) (List.seq 0 n) = true).
    { apply existsb_exists. exists x. split; [apply in_seq; lia|apply Nat.eqb_eq; exact Ex]. } congruence.
Qed.
Lemma fair_done X i (p : prog T X) : forall (st : heap * pool T X) sched, snd st i = p ->
  (forall t, exists t', t <= t' /\ sched t' = i) -> exists t o, snd (run_upto st sched t) i = PDone o.
Proof.
  assert (G : forall (p : prog T X) st sched, snd st i = p -> (forall t, exists t', t <= t' /\ sched t' = i) ->
    exists t, snd (run_upto st sched t) i = p /\ sched t = i).
  { clear p. intros p st sched E Fair. destruct (Fair 0) as (t' & _ & Et). destruct (first_turn _ _ _ Et) as (t & _ & Et' & Hb).
    exists t. split; [|exact Et']. rewrite run_other; auto. }
  induction p as [o|c k IH|a k IH|a c k IH]; intros st sched E Fair.
  - exists 0, o. exact E.
  - destruct (G _ _ _ E Fair) as (t & Ep & Et). destruct (run_upto st sched t) as [h ts] eqn:Q. cbn [snd] in Ep.
    assert (Q1 : run_upto st sched (S t) = (new_cell h c, set_thread ts i (k (h_next h)))) by (cbn [run_upto]; rewrite Q, Et; unfold step1; rewrite Ep; reflexivity).
    destruct (IH (h_next h) (run_upto st sched (S t)) (fun x => sched (S t + x))) as (u & o & D).
    + rewrite Q1. cbn. unfold set_thread. rewrite Nat.eqb_refl. reflexivity.
    + intros t0. destruct (Fair (S t + t0)) as (t' & L & Et'). exists (t' - S t). split; [lia|]. rewrite <- Et'. f_equal. lia.
    + exists (S t + u), o. rewrite run_upto_split. exact D.
  - destruct (G _ _ _ E Fair) as (t & Ep & Et). destruct (run_upto st sched t) as [h ts] eqn:Q. cbn [snd] in Ep.
    assert (Q1 : run_upto st sched (S t) = (h, set_thread ts i (k (h_cell h a)))) by (cbn [run_upto]; rewrite Q, Et; unfold step1; rewrite Ep; reflexivity).
    destruct (IH (h_cell h a) (run_upto st sched (S t)) (fun x => sched (S t + x))) as (u & o & D).
    + rewrite Q1. cbn. unfold set_thread. rewrite Nat.eqb_refl. reflexivity.
    + intros t0. destruct (Fair (S t + t0)) as (t' & L & Et'). exists (t' - S t). split; [lia|]. rewrite <- Et'. f_equal. lia.
    + exists (S t + u), o. rewrite run_upto_split. exact D.
  - destruct (G _ _ _ E Fair) as (t & Ep & Et). destruct (run_upto st sched t) as [h ts] eqn:Q. cbn [snd] in Ep.
    assert (Q1 : run_upto st sched (S t) = (set_cell h a c, set_thread ts i k)) by (cbn [run_upto]; rewrite Q, Et; unfold step1; rewrite Ep; reflexivity).
    destruct (IH (run_upto st sched (S t)) (fun x => sched (S t + x))) as (u & o & D).
    + rewrite Q1. cbn. unfold set_thread. rewrite Nat.eqb_refl. reflexivity.
    + intros t0. destruct (Fair (S t + t0)) as (t' & L & Et'). exists (t' - S t). split; [lia|]. rewrite <- Et'. f_equal. lia.
    + exists (S t + u), o. rewrite run_upto_split. exact D.
Qed.
Lemma run_upto_threads X (st : heap * pool T X) sched t : run_upto st sched t = run_threads st (map sched (List.seq 0 t)).
Proof.
  induction t as [|t IH]; [reflexivity|]. rewrite seq_S, map_app. cbn [run_upto map Nat.add]. rewrite IH.
  generalize (map sched (List.seq 0 t)). intros l. revert st IH. clear. intros st _. revert st. induction l as [|i l IH]; intros st; cbn; auto.
Qed.
Theorem C71_finishes : forall X (H : heap) G (ps : forall i, client T X (G i)) (es : forall i, refs (G i)) schedule i,
  (forall i, existing H (es i)) -> (forall t, exists t', t <= t' /\ schedule t' = i) ->
  exists t, snd (run_upto (H, fun i => code (prog_sem T) (ps i) (es i)) schedule t) i = PDone (alone (ps i) (read H (es i))).
Proof.
  intros X H G ps es schedule i He Fair. destruct (fair_done _ i _ (H, fun i => code (prog_sem T) (ps i) (es i)) schedule eq_refl Fair) as (t & o & D).
  exists t. rewrite D. f_equal. rewrite run_upto_threads in D. apply (C71_threads H G ps es He) in D. exact D.
Qed.
End Mirror.
Print Assumptions C71_threads.
Print Assumptions C71_results_unchanged.
Print Assumptions C71_finishes.

(** ** A case: two threads that parse with the same parser and recover, and two
    that use a result that was made before (one maps it), taking turns *)
Section Case.
Notation C71_job s next := (Parse ex_E 150 ex_top (ex_str s) true 5 scannerless_get_loc linecol_fmt next).
Definition case_G : list Type := @cons Type Z (@nil Type).
Definition case_start : heap char * out (hpresult Z) :=
  Heap.hparse ex_E 150 ex_top (ex_str "(()") true 5 scannerless_get_loc linecol_fmt ex_heap0.
Definition case_client (i : nat) : client char (unwrapped Z) case_G :=
  match i with
  | 0 => C71_job "1+(2" (Unwrap Here true (fun u => Finish (Ret u)))
  | 1 => C71_job "(()" (Unwrap Here false (fun u => Finish (Ret u)))
  | 2 => Unwrap Here true (fun u => Finish (Ret u))
  | 3 => Fmap Here (fun z => Ret (z + 7)%Z) (Unwrap Here true (fun u => Finish (Ret u)))
  | _ => Finish (Raise ManyEmpty)
  end.
Definition case_turns : list nat := flat_map (fun _ => [0; 1; 2; 0; 3; 1; 1]) (List.seq 0 700).
Definition is_done {X} (p : prog char X) : option (out X) := match p with PDone o => Some o | _ => None end.
Example C71_case :
  match case_start with
  | (h, Ret r) =>
      let '(h', ts) := run_threads (h, fun i => code (prog_sem char) (case_client i) ((r, tt) : refs case_G)) case_turns in
      is_done (ts 0) = Some (Ret (Returns 3%Z)) /\
      match is_done (ts 1) with Some (Ret (Raises l)) => List.map ei_loc_str l = ["1:3"; "1:4"]%string | _ => False end /\
      is_done (ts 2) = Some (Ret (Returns 0%Z)) /\
      is_done (ts 3) = Some (Ret (Returns 7%Z)) /\
      is_done (ts 4) = Some (Raise ManyEmpty) /\ Nat.ltb (h_next h + 100) (h_next h') = true
  | _ => False
  end.
Proof. vm_compute. repeat split. Qed.
End Case.
