(** The insertion budget: how many insertions a repair can make at one
    position. *)
From Verif Require Export EditInv.

Definition is_ins (o : rop) : bool := match o with Insert _ => true | Skip _ => false end.
(** insertions at position [q] *)
Fixpoint ins_at (q : nat) (sk : list (rop * nat)) : Z :=
  match sk with
  | [] => 0
  | (o, p) :: sk => (if is_ins o && Nat.eqb p q then 1 else 0) + ins_at q sk
  end%Z.
Lemma ins_at_app q a b : ins_at q (a ++ b) = (ins_at q a + ins_at q b)%Z.
Proof. induction a as [|[o p] a IH]; cbn [ins_at app]; lia. Qed.
Lemma ins_at_nonneg q a : (0 <= ins_at q a)%Z.
Proof. induction a as [|[o p] a IH]; cbn [ins_at]; [lia|]. destruct (_ && _); lia. Qed.
Lemma ins_at_out q i j (a : list (rop * nat)) :
  (forall x, In x a -> i <= snd x <= j) -> (q < i \/ j < q) -> ins_at q a = 0%Z.
Proof.
  intros H Hq. induction a as [|[o p] a IH]; cbn [ins_at]; auto.
  rewrite IH by (intros; apply H; right; auto).
  pose proof (H (o, p) (or_introl eq_refl)). simpl in *.
  destruct (Nat.eqb_spec p q); [lia|]. rewrite andb_false_r. reflexivity.
Qed.

Section Budget.
Context {T : Type} {V : nat -> Type}.
Variable E : env T V.
Variable s : list T.
Notation len := (List.length s).
Variable locrel : nat -> loc -> Prop.
Variable colrel : nat -> Z -> Prop.
Variable Cok : nat -> ctx T -> Prop.
Variable lay : Prop.
Hypothesis CS : ctx_system s locrel colrel Cok lay.
Hypothesis HE : forall d, gok lay (E d).

(** the number of insertions allowed at [q] for a run started at [pos] *)
Definition bud (pos : nat) (ins : Z) (rem : option Z) (q : nat) : Z :=
  if Nat.eqb q pos then match rem with Some z => z | None => 0%Z end else ins.

Definition bskel (pos : nat) (ins : Z) (rem : option Z) (sk : list (rop * nat))
    (e : nat) (left : Z) : Prop :=
  (forall x, In x sk -> pos <= snd x <= e) /\ pos <= e /\
  (forall q, ins_at q sk <= bud pos ins rem q)%Z /\
  (0 <= left)%Z /\ (left + ins_at e sk <= bud pos ins rem e)%Z.

Definition bgood {A} (pos : nat) (ins : Z) (rem : option Z) (r : repair T A) : Prop :=
  exists sk, Forall2 (skrel locrel) (map opskel (r_ops r)) sk /\
    bskel pos ins rem sk (r_pos r) (r_ins r).
Definition bres {A} (pos : nat) (ins : Z) (rem : option Z) (r : res T A) : Prop :=
  match r with RRec rc => forall rep, In rep (rc_reps rc) -> bgood pos ins rem rep | _ => True end.

Lemma bgood_same {A B} pos ins rem (r : repair T A) (r' : repair T B) :
  map opskel (r_ops r') = map opskel (r_ops r) -> r_pos r' = r_pos r -> r_ins r' = r_ins r ->
  bgood pos ins rem r -> bgood pos ins rem r'.
Proof. intros H1 H2 H3 (sk & K). exists sk. rewrite H1, H2, H3. exact K. Qed.

Lemma bres_fmap {A B} (f : A -> out B) pos ins rem r r' :
  bres pos ins rem r -> res_fmap f r = Ret r' -> bres pos ins rem r'.
Proof.
  destruct r; simpl; intros H Hf.
  - apply obind_ret in Hf as [o' [_ Hf]]. injection Hf as <-. exact I.
  - injection Hf as <-. exact I.
  - apply obind_ret in Hf as [o' [H1 Hf]]. injection Hf as <-.
    unfold rec_fmap in H1. apply obind_ret in H1 as [reps [H2 H1]]. injection H1 as <-.
    simpl. intros rep Hin. destruct (mapM_in _ _ _ _ H2 Hin) as (x & Hx & Hf).
    unfold rep_fmap in Hf. apply obind_ret in Hf as [v [_ Hf]]. injection Hf as <-.
    eapply bgood_same; [..|exact (H x Hx)]; reflexivity.
Qed.
Lemma bres_exp {A} x pos ins rem (r : res T A) : bres pos ins rem r -> bres pos ins rem (res_set_exp x r).
Proof.
  destruct r; simpl; auto. intros H rep Hin. apply in_map_iff in Hin as (r0 & <- & Hin).
  eapply bgood_same; [..|exact (H r0 Hin)]; simpl; auto. apply skel_set_exp.
Qed.
Lemma bres_ctx {A} x pos ins rem (r : res T A) : bres pos ins rem r -> bres pos ins rem (res_set_ctx x r).
Proof.
  destruct r; simpl; auto. intros H rep Hin. apply in_map_iff in Hin as (r0 & <- & Hin).
  eapply bgood_same; [..|exact (H r0 Hin)]; simpl; auto.
Qed.
Lemma bres_prep {A} x b pos ins rem (r : res T A) : bres pos ins rem r -> bres pos ins rem (res_prepend x b r).
Proof.
  destruct r; simpl; auto. intros H rep Hin. apply in_map_iff in Hin as (r0 & <- & Hin).
  eapply bgood_same; [..|exact (H r0 Hin)]; simpl; auto. apply skel_prepend.
Qed.

(** a run started later, with a full budget or the same one *)
Lemma bskel_from pos pos' ins rem rem' sk e left :
  (0 <= ins)%Z -> (forall z, rem = Some z -> 0 <= z)%Z ->
  pos < pos' -> (forall z, rem' = Some z -> z <= ins)%Z ->
  bskel pos' ins rem' sk e left -> bskel pos ins rem sk e left.
Proof.
  intros Hi Hz Hp Hr (H1 & H2 & H3 & H4 & H5).
  assert (Hb : forall q, pos' <= q -> (bud pos' ins rem' q <= bud pos ins rem q)%Z).
  { intros q Hq. unfold bud. destruct (Nat.eqb_spec q pos); [lia|].
    destruct (Nat.eqb_spec q pos'); [|lia]. destruct rem'; [auto|lia]. }
  split; [|split; [lia|split; [|split; [auto|]]]].
  - intros x Hx. specialize (H1 x Hx). lia.
  - intros q. destruct (Nat.lt_ge_cases q pos') as [Hq|Hq].
    + rewrite (ins_at_out q pos' e) by auto. unfold bud. destruct (Nat.eqb_spec q pos); [|lia].
      destruct rem; [auto|lia].
    + specialize (H3 q). specialize (Hb q Hq). lia.
  - specialize (Hb e H2). lia.
Qed.
Lemma bskel_none pos ins rem sk e left :
  (forall z, rem = Some z -> 0 <= z)%Z ->
  bskel pos ins None sk e left -> bskel pos ins rem sk e left.
Proof.
  intros Hz (H1 & H2 & H3 & H4 & H5).
  assert (Hb : forall q, (bud pos ins None q <= bud pos ins rem q)%Z).
  { intros q. unfold bud. destruct (Nat.eqb_spec q pos); [|lia]. destruct rem; [auto|lia]. }
  split; [auto|split; [auto|split; [|split; [auto|]]]].
  - intros q. specialize (H3 q). specialize (Hb q). lia.
  - specialize (Hb e). lia.
Qed.
Lemma bres_from {A} pos pos' ins rem rem' (r : res T A) :
  (0 <= ins)%Z -> (forall z, rem = Some z -> 0 <= z)%Z ->
  (pos < pos' /\ (forall z, rem' = Some z -> z <= ins)%Z) \/ (pos' = pos /\ rem' = rem) ->
  bres pos' ins rem' r -> bres pos ins rem r.
Proof.
  intros Hi Hz [[Hp Hr]|[-> ->]]; auto. destruct r as [?|?|rc]; simpl; auto.
  intros H rep Hin. destruct (H rep Hin) as (sk & K1 & K2). exists sk. split; auto.
  eapply bskel_from; eauto.
Qed.
Lemma bres_none {A} pos ins rem (r : res T A) :
  (forall z, rem = Some z -> 0 <= z)%Z -> bres pos ins None r -> bres pos ins rem r.
Proof.
  intros Hz. destruct r as [?|?|rc]; simpl; auto.
  intros H rep Hin. destruct (H rep Hin) as (sk & K1 & K2). exists sk. split; auto.
  eapply bskel_none; eauto.
Qed.

(** a repair and the result of its continuation *)
Lemma bgood_cok {A B C} pos ins rem (merge : A -> B -> C) (r : repair T A) (o : okr T B) :
  (0 <= ins)%Z -> bgood pos ins rem r -> r_pos r <= ok_pos o ->
  bgood pos ins rem (cont_ok ins merge r o).
Proof.
  intros Hi (sk & K1 & H1 & H2 & H3 & H4 & H5) Ho. exists sk. split; [exact K1|].
  simpl. split; [|split; [lia|split; [auto|]]].
  - intros x Hx. specialize (H1 x Hx). lia.
  - destruct (Nat.eqb_spec (r_pos r) (ok_pos o)) as [<-|Hn]; [auto|].
    split; [auto|]. rewrite (ins_at_out _ pos (r_pos r)) by (auto; lia).
    unfold bud. destruct (Nat.eqb_spec (ok_pos o) pos); lia.
Qed.
Lemma bgood_crec {A B C} pos ins rem rem' (merge : A -> B -> C) (r : repair T A) (r' : repair T B) :
  (0 <= ins)%Z -> bgood pos ins rem r -> (forall z, rem' = Some z -> z <= r_ins r)%Z ->
  bgood (r_pos r) ins rem' r' ->
  bgood pos ins rem (cont_rec merge r r').
Proof.
  intros Hi (sk & K1 & H1 & H2 & H3 & H4 & H5) Hrem (sk' & K1' & H1' & H2' & H3' & H4' & H5').
  exists (sk ++ sk'). simpl. rewrite join_ops_skel. split; [apply Forall2_app; auto|].
  assert (Hb : (bud (r_pos r) ins rem' (r_pos r) <= r_ins r)%Z).
  { unfold bud. rewrite Nat.eqb_refl. destruct rem'; auto. }
  assert (Hb' : forall q, r_pos r < q -> bud (r_pos r) ins rem' q = bud pos ins rem q).
  { intros q Hq. unfold bud. destruct (Nat.eqb_spec q pos); [lia|].
    destruct (Nat.eqb_spec q (r_pos r)); lia. }
  split; [|split; [lia|split; [|split; [auto|]]]].
  - intros x Hx. apply in_app_or in Hx as [Hx|Hx]; [specialize (H1 x Hx); lia|specialize (H1' x Hx); lia].
  - intros q. rewrite ins_at_app.
    destruct (Nat.lt_trichotomy q (r_pos r)) as [Hq|[->|Hq]].
    + rewrite (ins_at_out q (r_pos r) (r_pos r') sk') by (auto; lia). specialize (H3 q). lia.
    + specialize (H3' (r_pos r)). lia.
    + rewrite (ins_at_out q pos (r_pos r) sk) by (auto; lia).
      specialize (H3' q). rewrite Hb' in H3' by auto. lia.
  - rewrite ins_at_app.
    destruct (Nat.eq_dec (r_pos r') (r_pos r)) as [Hq|Hq].
    + rewrite Hq in *. lia.
    + rewrite (ins_at_out (r_pos r') pos (r_pos r) sk) by (auto; lia).
      rewrite Hb' in H5' by lia. lia.
Qed.

(** single operations *)
Lemma bgood_ins {A} pos ins z mk (r : repair T A) l lab x :
  r_ops r = [OpItem (Insert lab) l x mk] -> r_pos r = pos -> r_ins r = (z - 1)%Z ->
  (0 < z)%Z -> (0 <= ins)%Z -> locrel pos l -> bgood pos ins (Some z) r.
Proof.
  intros H1 H2 H3 Hz Hi Hl. exists [(Insert lab, pos)]. rewrite H1, H2, H3. split.
  - constructor; [split; auto|constructor].
  - split; [|split; [auto|split; [|split; [lia|]]]].
    + intros y [<-|[]]. simpl. lia.
    + intros q. cbn [ins_at is_ins]. unfold bud. rewrite (Nat.eqb_sym q pos).
      destruct (Nat.eqb pos q); simpl; lia.
    + cbn [ins_at is_ins]. unfold bud. rewrite Nat.eqb_refl. simpl. lia.
Qed.
Lemma bgood_skip {A} pos ins z mk (r : repair T A) l k x e :
  r_ops r = [OpItem (Skip k) l x mk] -> r_pos r = e -> r_ins r = ins ->
  (0 <= z)%Z -> (0 <= ins)%Z -> pos < e -> locrel pos l -> bgood pos ins (Some z) r.
Proof.
  intros H1 H2 H3 Hz Hi He Hl. exists [(Skip k, pos)]. rewrite H1, H2, H3. split.
  - constructor; [split; auto|constructor].
  - split; [|split; [lia|split; [|split; [lia|]]]].
    + intros y [<-|[]]. simpl. lia.
    + intros q. cbn [ins_at is_ins]. unfold bud. destruct (Nat.eqb q pos); simpl; lia.
    + cbn [ins_at is_ins]. unfold bud. destruct (Nat.eqb_spec e pos); simpl; lia.
Qed.

Lemma bres_cont {A B C} pos ins rem (rc : recr T A)
    (f : A -> nat -> ctx T -> Z -> out (res T B)) (merge : A -> B -> C) r :
  (0 <= ins)%Z ->
  (forall rep, In rep (rc_reps rc) -> bgood pos ins rem rep) ->
  (forall rep r, In rep (rc_reps rc) ->
     (0 <= r_ins rep)%Z -> f (r_val rep) (r_pos rep) (r_ctx rep) (r_ins rep) = Ret r ->
     (forall o, r = ROk o -> r_pos rep <= ok_pos o) /\
     exists rem', (forall z, rem' = Some z -> z <= r_ins rep)%Z /\ bres (r_pos rep) ins rem' r) ->
  continue_parse rc ins f merge = Ret r -> bres pos ins rem r.
Proof.
  intros Hi H Hf Hc. apply continue_ret in Hc as (reps & Hm & ->). simpl. intros rep Hin.
  destruct (flat_mapM_in _ _ _ _ Hm Hin) as (ra & ys & Hin1 & H1 & H2).
  unfold cont_one in H1. apply obind_ret in H1 as [rb [Hb H1]].
  pose proof (H _ Hin1) as Hg.
  assert (Hge : (0 <= r_ins ra)%Z) by (destruct Hg as (sk & _ & _ & _ & _ & Hge & _); exact Hge).
  destruct (Hf ra rb Hin1 Hge Hb) as [Ho (rem' & Hz & Hr)].
  destruct rb as [o|e|rb]; injection H1 as <-.
  - destruct H2 as [<-|[]]. apply bgood_cok; auto.
  - destruct H2.
  - apply in_map_iff in H2 as (rr & <- & Hrr). eapply bgood_crec; eauto.
Qed.
Lemma bres_join {A} pos ins rem (a b : recr T A) :
  bres pos ins rem (RRec a) -> bres pos ins rem (RRec b) -> bres pos ins rem (RRec (join_repairs a b)).
Proof.
  simpl. intros Ha Hb.
  assert (H : forall f rep, In rep (rc_reps a ++ filter f (rc_reps b)) -> bgood pos ins rem rep).
  { intros f rep Hin. apply in_app_or in Hin as [Hin|Hin]; auto.
    apply filter_In in Hin as [Hin _]; auto. }
  unfold join_repairs. destruct (rc_min a); destruct (rc_con a); try destruct (rc_con b);
    simpl; apply H.
Qed.

Lemma bres_with {A} (p : pfull T A) mk lab pos c ins rem r :
  (0 <= ins)%Z -> (forall z, rem = Some z -> 0 <= z)%Z -> locrel pos (get_loc c s pos) ->
  (forall r, p s pos c ins rem = Ret r -> bres pos ins rem r) ->
  recover_with_full p mk lab s pos c ins rem = Ret r -> bres pos ins rem r.
Proof.
  intros Hi Hz Hl Hp H. unfold recover_with_full in H. destruct rem as [z|]; [|auto].
  specialize (Hz z eq_refl).
  apply obind_ret in H as [r0 [H0 H]]. apply Hp in H0.
  destruct r0 as [o|e|rc].
  - injection H as <-; auto.
  - destruct (res_con (RErr e)); [injection H as <-; auto|].
    destruct (Z.eqb_spec z 0); [injection H as <-; auto|]. apply obind_ret in H as [x [Hx H]].
    injection H as <-. simpl. intros rep [<-|[]]. eapply bgood_ins; try reflexivity; auto; lia.
  - destruct (res_con (RRec rc)); [injection H as <-; auto|].
    destruct (Z.eqb_spec z 0); [injection H as <-; auto|]. apply obind_ret in H as [x [Hx H]].
    injection H as <-. simpl. intros rep [<-|Hin]; [|auto].
    eapply bgood_ins; try reflexivity; auto; lia.
Qed.

Lemma full_budget n : forall A (g : gram T V A) pos c ins rem r,
  gok lay g -> pos <= len -> Cok pos c -> (0 <= ins)%Z -> (forall z, rem = Some z -> 0 <= z)%Z ->
  full E n g s pos c ins rem = Ret r -> bres pos ins rem r.
Proof.
  induction n as [|n IH]; intros A g pos c ins rem r Hg Hpos Hc Hi Hz H; [discriminate|].
  pose proof (gall_node _ _ _ Hg) as [Hwf Hl].
  pose proof (cs_loc _ _ _ _ _ CS _ _ Hc Hpos) as Hlh.
  assert (Hnone : forall A (g : gram T V A) r, gok lay g -> full E n g s pos c ins None = Ret r -> bres pos ins rem r).
  { intros B g' r' Hg' H'. apply bres_none; auto. eapply IH; eauto. discriminate. }
  assert (Hat : forall A (g : gram T V A) pos' c' rem' r', gok lay g -> pos' <= len -> Cok pos' c' ->
      full E n g s pos' c' ins rem' = Ret r' -> forall o, r' = ROk o -> pos' <= ok_pos o).
  { intros B g' pos' c' rem' r' Hg' Hp' Hc' H' o ->.
    eapply full_good in H'; eauto. destruct H' as (_ & H' & _). lia. }
  assert (Hrp : forall A (g : gram T V A) rem' rc rep, gok lay g ->
      full E n g s pos c ins rem' = Ret (RRec rc) -> In rep (rc_reps rc) ->
      pos <= r_pos rep <= len /\ Cok (r_pos rep) (r_ctx rep)).
  { intros B g' rem' rc rep Hg' H' Hin. eapply full_good in H'; eauto.
    destruct H' as [_ H']. destruct (H' _ Hin) as [(sk & _ & _ & _ & _ & K1 & K2 & _) _]. auto. }
  destruct g; cbn [full] in H; simpl in Hg, Hwf, Hl.
  - injection H as <-; exact I.
  - unfold purefn_full in H. apply obind_ret in H as [x0 [_ H]]. injection H as <-; exact I.
  - injection H as <-; exact I.
  - unfold eof_full in H. destruct (Nat.eqb_spec pos len); [injection H as <-; exact I|].
    destruct rem as [z|]; injection H as <-; [|exact I]. intros rep [<-|[]].
    eapply bgood_skip; try reflexivity; auto; simpl; lia.
  - unfold satisfy_full in H. apply obind_ret in H as [x0 [_ H]].
    destruct x0; [injection H as <-; exact I|].
    destruct rem as [z|]; [|injection H as <-; exact I]. apply obind_ret in H as [f [Hq H]].
    destruct f as [[cur t]|]; injection H as <-; [|exact I].
    apply skip_search_found in Hq as (Hq1 & _ & _).
    intros rep [<-|[]]. eapply bgood_skip; try reflexivity; auto; simpl; lia.
  - unfold sym_full in H. apply obind_ret in H as [x0 [_ H]].
    destruct x0; [injection H as <-; exact I|].
    destruct rem as [z|]; [|injection H as <-; exact I]. apply obind_ret in H as [f [Hq H]].
    specialize (Hz z eq_refl).
    assert (Hins : forall rep, In rep (if (z =? 0)%Z then []
        else [make_insert z x pos c (get_loc c s pos) l [l]]) -> bgood pos ins (Some z) rep).
    { intros rep Hin. destruct (Z.eqb_spec z 0); [destruct Hin|].
      destruct Hin as [<-|[]]. eapply bgood_ins; try reflexivity; auto; lia. }
    destruct f as [[cur t]|]; injection H as <-; intros rep Hin; simpl in Hin; auto.
    apply skip_search_found in Hq as (Hq1 & _ & _).
    apply in_app_or in Hin as [Hin|[<-|[]]]; auto.
    eapply bgood_skip; try reflexivity; auto; simpl; lia.
  - unfold literal_full in H. destruct (starts_with _ _ _ _); [injection H as <-; exact I|].
    destruct rem as [z|]; [|injection H as <-; exact I]. apply obind_ret in H as [f [Hq H]].
    specialize (Hz z eq_refl).
    assert (Hins : forall rep, In rep (if (z =? 0)%Z then []
        else [make_insert z x pos c (get_loc c s pos) l [l]]) -> bgood pos ins (Some z) rep).
    { intros rep Hin. destruct (Z.eqb_spec z 0); [destruct Hin|].
      destruct Hin as [<-|[]]. eapply bgood_ins; try reflexivity; auto; lia. }
    destruct f as [[cur t]|]; injection H as <-; intros rep Hin; simpl in Hin; auto.
    apply skip_search_found in Hq as (Hq1 & _ & _).
    apply in_app_or in Hin as [Hin|[<-|[]]]; auto.
    eapply bgood_skip; try reflexivity; auto; simpl; lia.
  - unfold regexp_full in H. destruct (probe_re _ _ _) as [[e v]|]; [injection H as <-; exact I|].
    destruct rem as [z|]; [|injection H as <-; exact I]. apply obind_ret in H as [f [Hq H]].
    destruct f as [[cur [e v]]|]; injection H as <-; [|exact I].
    apply skip_search_found in Hq as (Hq1 & Hq2 & _). injection Hq2 as Hq2.
    apply probe_re_some in Hq2.
    assert (Hql : cur <= len) by lia. pose proof (Hwf _ _ _ _ Hql Hq2) as He.
    intros rep [<-|[]]. eapply bgood_skip; try reflexivity; auto; simpl; lia.
  - unfold fmap_full in H. apply obind_ret in H as [r0 [H0 H]]. apply IH in H0; auto; [|apply Hg].
    eapply bres_fmap; eauto.
  - destruct Hg as [_ [Hg1 Hg2]]. unfold alt_full in H. apply obind_ret in H as [ra [Ha H]].
    assert (Hrec : forall la x r, alt_recover (full E n g1) (full E n g2) la x s pos c ins rem
        = Ret r -> bres pos ins rem r).
    { clear H. intros la x r' H. unfold alt_recover in H.
      destruct rem as [m|]; [|injection H as <-; exact I].
      apply obind_ret in H as [rra [Hra H]]. apply obind_ret in H as [rrb [Hrb H]].
      apply IH in Hra; auto. apply IH in Hrb; auto.
      destruct rra as [?|?|a], rrb as [?|?|b]; injection H as <-; try exact I;
        try (apply (bres_exp x _ _ _ (RRec _)); assumption).
      apply (bres_exp x _ _ _ (RRec _)). apply bres_join; assumption. }
    assert (Hb : forall xa la,
       (rb <- full E n g2 s pos c ins None ;;
          if res_con rb then Ret rb
          else
            let expected := Append xa (res_exp rb) in
            match rb with
            | ROk ob => Ret (ROk (ok_set_exp expected ob))
            | _ => alt_recover (full E n g1) (full E n g2) la expected s pos c ins rem
            end) = Ret r -> bres pos ins rem r).
    { clear H. intros xa la H. apply obind_ret in H as [rb [Hb H]].
      apply Hnone in Hb; auto.
      destruct (res_con rb); [injection H as <-; exact Hb|]. cbv zeta in H.
      destruct rb; [injection H as <-; exact I| |]; eapply Hrec; exact H. }
    pose proof (Hnone _ _ _ Hg1 Ha) as Qa.
    destruct ra as [o|[la xa ca]|[reps mn la xa ca]].
    + injection H as <-; exact I.
    + destruct ca; [injection H as <-; exact I|]. eapply Hb; exact H.
    + destruct ca; [injection H as <-; exact Qa|]. eapply Hb; exact H.
  - destruct Hg as [_ [Hg1 Hg2]]. unfold bind_full in H. apply obind_ret in H as [ra [Ha H]].
    destruct ra as [oa|e|rc].
    + eapply full_good in Ha; eauto. destruct Ha as (_ & O2 & O3 & O4 & _).
      assert (Hb : exists rem' rb, (ok_con oa = true /\ rem' = Some ins \/ ok_con oa = false /\ rem' = rem) /\
         full E n (f (ok_val oa)) s (ok_pos oa) (ok_ctx oa) ins rem' = Ret rb /\
         r = res_prepend (ok_exp oa) (ok_con oa) rb).
      { destruct (ok_con oa).
        - apply obind_ret in H as [rb [Hb H]]. injection H as <-. exists (Some ins), rb; auto.
        - apply obind_ret in H as [rb [Hb H]]. injection H as <-. exists rem, rb; auto. }
      destruct Hb as (rem' & rb & Hrem & Hb & ->). apply bres_prep.
      apply IH in Hb; auto; try lia; try apply Hg2.
      2:{ destruct Hrem as [[_ ->]|[_ ->]]; auto. intros z Hz'. injection Hz' as <-. auto. }
      eapply bres_from; [auto|auto| |exact Hb].
      destruct Hrem as [[Hcn ->]|[Hcn ->]]; rewrite Hcn in O3; symmetry in O3.
      * left. apply Nat.ltb_lt in O3. split; auto. intros z Hz'. injection Hz' as <-. lia.
      * right. apply Nat.ltb_ge in O3. split; auto. lia.
    + injection H as <-; exact I.
    + pose proof (IH _ _ _ _ _ _ _ Hg1 Hpos Hc Hi Hz Ha) as Qa.
      eapply bres_cont; [exact Hi|exact Qa| |exact H].
      simpl. intros rep r' Hin Hge H'.
      destruct (Hrp _ _ _ _ _ Hg1 Ha Hin) as [Hp' Hc'].
      split; [eapply Hat; [| | |exact H']; auto; [apply Hg2|lia]|].
      exists (Some (r_ins rep)). split; [intros z Hz'; injection Hz' as <-; lia|].
      eapply IH; [| | | | |exact H']; auto; [apply Hg2|lia|intros z Hz'; injection Hz' as <-; lia].
  - destruct Hg as [_ [Hg1 Hg2]]. unfold seq_full in H. apply obind_ret in H as [ra [Ha H]].
    destruct ra as [oa|e|rc].
    + eapply full_good in Ha; eauto. destruct Ha as (_ & O2 & O3 & O4 & _). cbv zeta in H.
      apply obind_ret in H as [rb [Hb H]]. apply obind_ret in H as [rc [Hrc H]].
      injection H as <-. apply bres_prep. eapply bres_fmap; [|exact Hrc].
      apply IH in Hb; auto; try lia.
      2:{ destruct (ok_con oa); auto. intros z Hz'. injection Hz' as <-. auto. }
      eapply bres_from; [auto|auto| |exact Hb].
      destruct (ok_con oa); symmetry in O3.
      * left. apply Nat.ltb_lt in O3. split; auto. intros z Hz'. injection Hz' as <-. lia.
      * right. apply Nat.ltb_ge in O3. split; auto. lia.
    + injection H as <-; exact I.
    + pose proof (IH _ _ _ _ _ _ _ Hg1 Hpos Hc Hi Hz Ha) as Qa.
      eapply bres_cont; [exact Hi|exact Qa| |exact H].
      simpl. intros rep r' Hin Hge H'.
      destruct (Hrp _ _ _ _ _ Hg1 Ha Hin) as [Hp' Hc'].
      split; [eapply Hat; [| | |exact H']; auto; lia|].
      exists (Some (r_ins rep)). split; [intros z Hz'; injection Hz' as <-; lia|].
      eapply IH; [| | | | |exact H']; auto; [lia|intros z Hz'; injection Hz' as <-; lia].
  - destruct Hg as [_ Hg]. unfold maybe_full in H. apply obind_ret in H as [r0 [H0 H]]. apply Hnone in H0; auto.
    destruct r0.
    + eapply bres_fmap; eauto.
    + destruct (res_con _); [eapply bres_fmap; eauto|injection H as <-; exact I].
    + destruct (res_con _); [eapply bres_fmap; eauto|injection H as <-; exact I].
  - destruct Hg as [_ Hg].
    assert (Hm : forall k con v pos c r, pos <= len -> Cok pos c ->
      many_full (full E n g) k con v s pos c ins = Ret r ->
      (forall o, r = ROk o -> pos <= ok_pos o) /\ bres pos ins None r).
    { clear - IH Hg Hi CS HE. induction k as [|k IHk]; intros con v pos c r Hpos Hc H; [discriminate|].
      simpl in H. apply obind_ret in H as [r0 [H0 H]].
      pose proof H0 as Hgd. eapply full_good in Hgd; eauto.
      apply IH in H0; auto; [|discriminate].
      destruct r0 as [o|e|rc].
      - destruct Hgd as (_ & O2 & O3 & O4 & _). destruct (ok_con o); [|discriminate].
        symmetry in O3. apply Nat.ltb_lt in O3.
        destruct (IHk _ _ _ _ _ (proj2 O2) O4 H) as [K1 K2]. split.
        + intros o' Ho. specialize (K1 o' Ho). lia.
        + eapply bres_from; [auto|discriminate| |exact K2]. left. split; [auto|discriminate].
      - destruct (er_con e); injection H as <-; (split; [intros o Ho|exact I]); [discriminate|].
        injection Ho as <-. simpl. lia.
      - split; [intros o ->; apply continue_ret in H as (? & _ & H); discriminate|].
        eapply bres_cont; [exact Hi|exact H0| |exact H].
        simpl. intros rep r' Hin Hge H'. destruct Hgd as [_ Hgd].
        destruct (Hgd _ Hin) as [(sk & _ & _ & _ & _ & R1 & R2 & _) _].
        destruct (IHk _ _ _ _ _ (proj2 R1) R2 H') as [K1 K2]. split; auto.
        exists None. split; [discriminate|auto]. }
    apply bres_none; auto. apply (Hm _ _ _ _ _ _ Hpos Hc H).
  - destruct Hg as [_ Hg]. unfold attempt_full in H. destruct rem; [eapply IH; eauto|].
    apply obind_ret in H as [r0 [_ H]]. destruct r0; injection H as <-; exact I.
  - destruct Hg as [_ Hg]. unfold label_full in H. apply obind_ret in H as [r0 [H0 H]]. injection H as <-.
    apply bres_exp. eapply IH; eauto.
  - destruct Hg as [_ Hg]. unfold recover_full in H. apply obind_ret in H as [r0 [H0 H]]. apply IH in H0; auto.
    destruct r0 as [?|?|rc]; injection H as <-; auto. simpl. intros rep Hin.
    apply in_map_iff in Hin as (r1 & <- & Hin). eapply bgood_same; [..|exact (H0 r1 Hin)]; reflexivity.
  - destruct Hg as [_ Hg]. eapply bres_with; [auto|auto|exact Hlh| |exact H]. intros r' H'. eapply IH; eauto.
  - destruct Hg as [_ Hg]. eapply bres_with; [auto|auto|exact Hlh| |exact H]. intros r' H'. eapply IH; eauto.
  - destruct Hg as [_ Hg]. unfold block_full in H. apply obind_ret in H as [r0 [H0 H]]. injection H as <-.
    apply bres_ctx. eapply IH in H0; eauto. apply (cs_mark _ _ _ _ _ CS). eapply (cs_upd _ _ _ _ _ CS); eauto.
  - destruct Hg as [_ Hg]. unfold aligned_full in H. destruct (Z.eqb _ _); [|injection H as <-; exact I].
    eapply IH in H; eauto. eapply (cs_upd _ _ _ _ _ CS); eauto.
  - destruct Hg as [_ Hg]. unfold indented_full in H. destruct (Z.eqb _ _); [|injection H as <-; exact I].
    apply obind_ret in H as [r0 [H0 H]]. injection H as <-. apply bres_ctx. eapply IH in H0; eauto.
    apply (cs_mark _ _ _ _ _ CS). eapply (cs_upd _ _ _ _ _ CS); eauto.
  - eapply IH in H; eauto.
  - discriminate.
Qed.
End Budget.
