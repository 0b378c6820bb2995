(** Proofs for property C45: a larger insertion budget only adds repairs. *)
From Verif Require Export MonoSpec Fuel Simulation.

Definition lrep {T A} (r r' : repair T A) : Prop :=
  allows_more (r_ins r) (r_ins r') /\
  r' = Repair (r_cost r) (r_prio r) (r_ins r') (r_ops r) (r_val r) (r_pos r) (r_ctx r) (r_exp r) (r_con r).

Inductive sub {T A} : list (repair T A) -> list (repair T A) -> Prop :=
| sub_nil l : sub [] l
| sub_keep r r' l l' : lrep r r' -> sub l l' -> sub (r :: l) (r' :: l')
| sub_drop r' l l' : sub l l' -> sub l (r' :: l').
#[global] Hint Constructors sub : sub.

Section Sub.
Context {T : Type}.
Lemma sub_app {A} (a a' b b' : list (repair T A)) : sub a a' -> sub b b' -> sub (a ++ b) (a' ++ b').
Proof.
  induction 1; intros Hb; cbn; auto with sub.
  induction l; cbn; auto with sub.
Qed.
Lemma sub_app_r {A} (a b' : list (repair T A)) x : sub a b' -> sub a (x ++ b').
Proof. intros H. apply (sub_app [] x a b'); auto with sub. Qed.
Lemma sub_app_l {A} (a b' : list (repair T A)) x : sub a b' -> sub a (b' ++ x).
Proof. intros H. rewrite <- (app_nil_r a). apply sub_app; auto with sub. Qed.
Lemma sub_map {A B} (f f' : repair T A -> repair T B) a a' :
  (forall r r', lrep r r' -> lrep (f r) (f' r')) -> sub a a' -> sub (map f a) (map f' a').
Proof. intros Hf. induction 1; cbn; auto with sub. Qed.
Lemma sub_filter {A} (f : repair T A -> bool) a a' :
  (forall r r', lrep r r' -> f r = f r') -> sub a a' -> sub (filter f a) (filter f a').
Proof.
  intros Hf. induction 1; cbn; auto with sub.
  - rewrite (Hf _ _ H). destruct (f r'); auto with sub.
  - destruct (f r'); auto with sub.
Qed.
Lemma sub_filter_all {A} (f : repair T A -> bool) a : (forall r, In r a -> f r = true) -> filter f a = a.
Proof.
  induction a as [|r a IH]; cbn; intros H; auto. rewrite H by auto. f_equal. auto.
Qed.
Lemma lrep_map {A B} (f : repair T A -> repair T B) :
  (forall a b i o v p c e d k, r_ins (f (Repair a b i o v p c e d)) = i /\
     f (Repair a b k o v p c e d) =
     let r := f (Repair a b i o v p c e d) in
     Repair (r_cost r) (r_prio r) k (r_ops r) (r_val r) (r_pos r) (r_ctx r) (r_exp r) (r_con r)) ->
  forall r r', lrep r r' -> lrep (f r) (f r').
Proof.
  intros Hf r r' [H1 H2]. rewrite H2. destruct r as [a b i o v p c e d], r' as [a' b' k o' v' p' c' e' d'].
  cbn in *. clear H2. destruct (Hf a b i o v p c e d k) as [K1 K2], (Hf a b k o v p c e d k) as [K3 K4].
  split; [congruence|]. rewrite K2 at 1. cbn. rewrite K3. reflexivity.
Qed.
Lemma lrep_set_exp {A} x (r r' : repair T A) : lrep r r' -> lrep (rep_set_exp x r) (rep_set_exp x r').
Proof. apply lrep_map. intros. split; reflexivity. Qed.
Lemma lrep_prepend {A} x b (r r' : repair T A) : lrep r r' -> lrep (rep_prepend x b r) (rep_prepend x b r').
Proof. apply lrep_map. intros. split; reflexivity. Qed.
Lemma lrep_set_ctx {A} x (r r' : repair T A) : lrep r r' -> lrep (rep_set_ctx x r) (rep_set_ctx x r').
Proof. apply lrep_map. intros. split; reflexivity. Qed.
Lemma lrep_set_prio {A} (r r' : repair T A) : lrep r r' -> lrep (rep_set_prio r) (rep_set_prio r').
Proof. apply lrep_map. intros. split; reflexivity. Qed.
Lemma lrep_prio {A} (r r' : repair T A) : lrep r r' -> r_prio r = r_prio r'.
Proof. intros [_ ->]. reflexivity. Qed.

Lemma sub_mapM {A B} (f : A -> out B) reps reps' l l' :
  sub reps reps' -> mapM (rep_fmap (T:=T) f) reps = Ret l -> mapM (rep_fmap f) reps' = Ret l' -> sub l l'.
Proof.
  intros H. revert l l'. induction H; intros k k' K K'; cbn in K, K'.
  - injection K as <-. auto with sub.
  - destruct H as [H1 H2]. rewrite H2 in K'. unfold rep_fmap in K at 1, K' at 1. cbn in K'.
    destruct (f (r_val r)) as [v|e|]; cbn in *; try discriminate.
    destruct (mapM _ l) as [m|e|]; cbn in *; try discriminate.
    destruct (mapM _ l') as [m'|e|]; cbn in *; try discriminate.
    injection K as <-. injection K' as <-. apply sub_keep; auto. split; auto.
  - unfold rep_fmap in K' at 1. destruct (f (r_val r')) as [v|e|]; cbn in *; try discriminate.
    destruct (mapM _ l') as [m'|e|]; cbn in *; try discriminate.
    injection K' as <-. auto with sub.
Qed.
End Sub.

Definition live (rem : option Z) : Prop := match rem with None => True | Some k => k <> 0%Z end.
Definition lrem (rem rem' : option Z) : Prop :=
  match rem, rem' with
  | None, None => True | Some a, Some b => allows_more a b | _, _ => False
  end.

(** results of the same run with a smaller and a larger budget *)
Definition rrel {T A} (um : bool) (lv : Prop) (r r' : res T A) : Prop :=
  match r, r' with
  | ROk o, ROk o' => o = o'
  | RErr e, RErr e' => er_con e = er_con e' /\ (lv -> er_con e = false -> e = e')
  | RErr e, RRec c' => um = true /\ er_con e = rc_con c' /\ rc_min c' = None /\
      (lv -> er_con e = false -> False)
  | RRec c, RRec c' => rc_con c = rc_con c' /\ rc_min c = rc_min c' /\
      sub (rc_reps c) (rc_reps c') /\
      (lv -> rc_con c = false -> rc_loc c = rc_loc c' /\ rc_exp c = rc_exp c')
  | _, _ => False
  end.
(** what sequencing needs to know *)
Definition crel {T A} (r r' : res T A) : Prop :=
  match r, r' with
  | ROk o, ROk o' => o = o'
  | RErr _, RErr _ | RErr _, RRec _ => True
  | RRec c, RRec c' => sub (rc_reps c) (rc_reps c')
  | _, _ => False
  end.
Lemma rrel_crel {T A} um lv (r r' : res T A) : rrel um lv r r' -> crel r r'.
Proof. destruct r, r'; cbn; tauto. Qed.
Lemma rrel_weak {T A} um (lv lv' : Prop) (r r' : res T A) : (lv' -> lv) -> rrel um lv r r' -> rrel um lv' r r'.
Proof. destruct r, r'; cbn; tauto. Qed.

Section Rel.
Context {T : Type}.
Lemma sub_flat_mapM {A B C} ins ins' (F F' : A -> nat -> ctx T -> Z -> out (res T B)) (merge : A -> B -> C) :
  allows_more ins ins' ->
  (forall v p c k k' r r', allows_more k k' -> F v p c k = Ret r -> F' v p c k' = Ret r' -> crel r r') ->
  forall reps reps', sub reps reps' -> forall l l',
  flat_mapM (cont_one ins F merge) reps = Ret l ->
  flat_mapM (cont_one ins' F' merge) reps' = Ret l' -> sub l l'.
Proof.
  intros Hi HF reps reps' H. induction H; intros k k' K K'; cbn in K, K'.
  - injection K as <-. auto with sub.
  - destruct H as [H1 H2]. rewrite H2 in K'. unfold cont_one in K at 1, K' at 1. cbn in K'.
    specialize (HF (r_val r) (r_pos r) (r_ctx r) (r_ins r) (r_ins r')).
    destruct (F _ _ _ _) as [x|e|]; cbn [obind] in K; try discriminate.
    destruct (F' _ _ _ _) as [x'|e|]; cbn [obind] in K'; try discriminate.
    specialize (HF x x' H1 eq_refl eq_refl).
    destruct (flat_mapM _ l) as [m|e|]; [|destruct x; discriminate..].
    destruct (flat_mapM _ l') as [m'|e|]; [|destruct x'; discriminate..].
    specialize (IHsub _ _ eq_refl eq_refl).
    destruct x as [o|e|c], x' as [o'|e'|c']; cbn in HF, K, K'; try contradiction;
      injection K as <-; injection K' as <-.
    + subst o'. apply sub_keep; auto. split; [cbn; destruct (Nat.eqb _ _); auto|]. reflexivity.
    + auto.
    + apply sub_app_r. auto.
    + apply sub_app; auto. apply sub_map; auto.
      intros q q' [Q1 Q2]. rewrite Q2. split; [exact Q1|reflexivity].
  - unfold cont_one in K' at 1. destruct (F' _ _ _ _) as [x'|e|]; cbn [obind] in K'; try discriminate.
    destruct (flat_mapM _ l') as [m'|e|]; [|destruct x'; discriminate..].
    destruct x'; cbn in K'; injection K' as <-; auto with sub.
    apply sub_app_r. auto.
Qed.
Lemma rrel_continue {A B C} um lv ins ins' (ra ra' : recr T A) (F F' : A -> nat -> ctx T -> Z -> out (res T B))
    (merge : A -> B -> C) x x' :
  allows_more ins ins' ->
  (forall v p c k k' r r', allows_more k k' -> F v p c k = Ret r -> F' v p c k' = Ret r' -> crel r r') ->
  rrel um lv (RRec ra) (RRec ra') ->
  continue_parse ra ins F merge = Ret x -> continue_parse ra' ins' F' merge = Ret x' -> rrel um lv x x'.
Proof.
  intros Hi HF (H1 & H2 & H3 & H4) K K'. unfold continue_parse in *.
  destruct (flat_mapM _ (rc_reps ra)) as [m|e|] eqn:L; cbn in K; try discriminate.
  destruct (flat_mapM _ (rc_reps ra')) as [m'|e|] eqn:L'; cbn in K'; try discriminate.
  injection K as <-. injection K' as <-. cbn. repeat split; auto; try (apply H4; auto).
  eapply sub_flat_mapM; eauto.
Qed.
Lemma rrel_continue_err {A B C} um lv ins' e (ra' : recr T A) (F' : A -> nat -> ctx T -> Z -> out (res T B))
    (merge : A -> B -> C) x' :
  rrel um lv (RErr (A:=A) e) (RRec ra') ->
  continue_parse ra' ins' F' merge = Ret x' -> rrel um lv (RErr e) x'.
Proof.
  intros (H1 & H2 & H3 & H4) K'. unfold continue_parse in *.
  destruct (flat_mapM _ (rc_reps ra')) as [m'|e'|] eqn:L'; cbn in K'; try discriminate.
  injection K' as <-. cbn. auto.
Qed.
Lemma rrel_prepend {A} um (lv lv' : Prop) x b (r r' : res T A) :
  (b = false -> lv' -> lv) -> rrel um lv r r' -> rrel um lv' (res_prepend x b r) (res_prepend x b r').
Proof.
  intros Hb H. destruct r as [o|e|c], r' as [o'|e'|c']; cbn in *; try contradiction.
  - congruence.
  - destruct H as [H1 H2]. unfold er_prepend. rewrite <- H1. destruct (er_con e) eqn:Q; cbn.
    + split; [congruence|]. intros. congruence.
    + split; auto. intros L ->. rewrite H2; auto.
  - destruct H as (H0 & H1 & H2 & H3). unfold er_prepend. rewrite <- H1.
    destruct (er_con e) eqn:Q; cbn; (split; [auto|split; [auto|split; [auto|]]]).
    + intros. congruence.
    + intros L ->. auto.
  - destruct H as (H1 & H2 & H3 & H4). rewrite <- H1. destruct (rc_con c) eqn:Q; cbn; repeat split; auto; try discriminate.
    + apply sub_map; auto. apply lrep_prepend.
    + apply sub_map; auto. apply lrep_prepend.
    + apply H4; auto.
    + destruct (H4 (Hb H0 H)); auto. congruence.
Qed.
Lemma rrel_set_exp {A} um lv x (r r' : res T A) :
  rrel um lv r r' -> rrel um lv (res_set_exp x r) (res_set_exp x r').
Proof.
  intros H. destruct r as [o|e|c], r' as [o'|e'|c']; cbn in *; try contradiction.
  - congruence.
  - destruct H as [H1 H2]. unfold er_set_exp. rewrite <- H1. destruct (er_con e) eqn:Q; cbn.
    + split; [congruence|]. intros. congruence.
    + split; auto. intros L _. rewrite H2; auto.
  - destruct H as (H0 & H1 & H2 & H3). unfold er_set_exp.
    destruct (er_con e) eqn:Q; cbn; repeat split; auto; congruence.
  - destruct H as (H1 & H2 & H3 & H4). repeat split; auto.
    + apply sub_map; auto. apply lrep_set_exp.
    + apply H4; auto.
    + rewrite <- H1. destruct (rc_con c); [discriminate|reflexivity].
Qed.
Lemma rrel_set_ctx {A} um lv x (r r' : res T A) :
  rrel um lv r r' -> rrel um lv (res_set_ctx x r) (res_set_ctx x r').
Proof.
  intros H. destruct r as [o|e|c], r' as [o'|e'|c']; cbn in *; try contradiction; auto.
  - congruence.
  - destruct H as (H1 & H2 & H3 & H4). repeat split; auto; try (apply H4; auto).
    apply sub_map; auto. apply lrep_set_ctx.
Qed.
Lemma rrel_fmap {A B} um lv (f : A -> out B) (r r' : res T A) x x' :
  rrel um lv r r' -> res_fmap f r = Ret x -> res_fmap f r' = Ret x' -> rrel um lv x x'.
Proof.
  intros H K K'. destruct r as [o|e|c], r' as [o'|e'|c']; cbn in *; try contradiction.
  - subst o'. rewrite K in K'. injection K' as <-. unfold ok_fmap in K. destruct (f (ok_val o)); try discriminate.
    injection K as <-. reflexivity.
  - injection K as <-. injection K' as <-. exact H.
  - injection K as <-. unfold rec_fmap in K'. destruct (mapM _ _); cbn in K'; try discriminate.
    injection K' as <-. exact H.
  - destruct H as (H1 & H2 & H3 & H4). unfold rec_fmap in *.
    destruct (mapM _ (rc_reps c)) eqn:M; cbn in K; try discriminate.
    destruct (mapM _ (rc_reps c')) eqn:M'; cbn in K'; try discriminate.
    injection K as <-. injection K' as <-. cbn. repeat split; auto; try (apply H4; auto).
    eapply sub_mapM; eauto.
Qed.
Lemma rrel_refl_simple {A} um lv (r : sres T A) : rrel um lv (sres_res r) (sres_res r).
Proof. destruct r; cbn; auto. Qed.
End Rel.

Lemma more_minus k k' : allows_more k k' -> k <> 0%Z -> allows_more (k - 1) (k' - 1).
Proof. unfold allows_more. lia. Qed.
Lemma more_nonzero k k' : allows_more k k' -> k <> 0%Z -> k' <> 0%Z.
Proof. unfold allows_more. lia. Qed.

Section Main.
Context {T : Type} {V : nat -> Type}.
Variable E : env T V.
Variables um am : bool.
Hypothesis Hmode : um && am = false.
Hypothesis HE : forall d, uses um am (E d).
Notation full := (full E).

(** without [attempt], a parser that fails on the spot without recovery fails
    on the spot with it, and its automatic insertions need budget *)
Definition opened {A} (left : Z) (r : res T A) : Prop :=
  res_con r = false /\
  match r with
  | ROk _ => False
  | RErr _ => True
  | RRec c => left = 0%Z -> forall x, In x (rc_reps c) -> r_prio x <> None
  end.

Lemma opened_continue {A B C} left (ra : recr T A) ins (F : A -> nat -> ctx T -> Z -> out (res T B))
    (merge : A -> B -> C) x :
  opened left (RRec ra) -> continue_parse ra ins F merge = Ret x -> opened left x.
Proof.
  intros [H1 H2] K. unfold continue_parse in K.
  destruct (flat_mapM _ _) as [m|e|] eqn:L; cbn in K; try discriminate. injection K as <-.
  split; [exact H1|]. cbn. intros Hl. specialize (H2 Hl). clear H1.
  revert m L. induction (rc_reps ra) as [|r reps IH]; intros m L; cbn in L.
  { injection L as <-. intros ? []. }
  unfold cont_one in L at 1. destruct (F _ _ _ _) as [y|e|]; cbn [obind] in L; try discriminate.
  destruct (flat_mapM _ reps) as [m'|e|]; [|destruct y; discriminate..].
  specialize (IH (fun z Hz => H2 z (or_intror Hz)) _ eq_refl).
  intros z Hz. pose proof (H2 r (or_introl eq_refl)) as Hr.
  destruct y as [o|e|c]; cbn in L; injection L as <-.
  - destruct Hz as [<-|Hz]; auto.
  - auto.
  - apply in_app_or in Hz as [Hz|Hz]; auto. apply in_map_iff in Hz as (w & <- & _). exact Hr.
Qed.
Lemma opened_map {A} left (c : recr T A) (f : repair T A -> repair T A) l x :
  (forall r, r_prio r <> None -> r_prio (f r) <> None) ->
  opened left (RRec c) -> opened left (RRec (Recd (map f (rc_reps c)) (rc_min c) l x (rc_con c))).
Proof.
  intros Hf [H1 H2]. split; [exact H1|]. cbn. intros Hl z Hz. apply in_map_iff in Hz as (w & <- & Hw). auto.
Qed.

Definition OP n : Prop := forall A (g : gram T V A) s pos c ins left e r,
  am = false -> uses um am g -> full n g s pos c ins None = Ret (RErr e) -> er_con e = false ->
  full n g s pos c ins (Some left) = Ret r -> opened left r.

Lemma not_ok_some n A (g : gram T V A) s pos c ins left e o :
  full n g s pos c ins None = Ret (RErr e) -> full n g s pos c ins (Some left) = Ret (ROk o) -> False.
Proof.
  intros H K. apply full_ok_iff in K. apply (full_ok_iff E n A g s pos c ins None) in K. congruence.
Qed.
Lemma ok_some n A (g : gram T V A) s pos c ins rem ins' rem' o :
  full n g s pos c ins rem = Ret (ROk o) -> full n g s pos c ins' rem' = Ret (ROk o).
Proof. intros H. apply full_ok_iff in H. apply full_ok_iff. exact H. Qed.

Lemma opened_all n : OP n.
Proof.
  induction n as [|n IH]; intros A g s pos c ins left e r Ham Hg H He K; [discriminate|].
  pose proof (not_ok_some (S n) A g s pos c ins left e) as NO.
  assert (Hnok : forall o, r <> ROk o) by (intros o ->; eapply NO; eauto). clear NO.
  destruct g; cbn [Grammar.full] in H, K; simpl in Hg; destruct Hg as [Hn Hg].
  - discriminate.
  - unfold purefn_full in *. destruct (f tt); discriminate.
  - cbn in H, K. injection K as <-. split; [reflexivity|exact I].
  - unfold eof_full in *. destruct (Nat.eqb _ _); [discriminate|]. injection K as <-.
    split; [reflexivity|]. cbn. intros _ x [<-|[]]. discriminate.
  - unfold satisfy_full in *. destruct (probe_tok test s pos) as [[t|]|?|]; cbn in *; try discriminate.
    destruct (skip_search _ _ _) as [[[j t]|]|?|]; cbn in K; try discriminate; injection K as <-.
    + split; [reflexivity|]. cbn. intros _ y [<-|[]]. discriminate.
    + split; [reflexivity|exact I].
  - unfold sym_full in *. destruct (probe_sym teq x s pos) as [[t|]|?|]; cbn in *; try discriminate.
    destruct (skip_search _ _ _) as [[[j t]|]|?|]; cbn in K; try discriminate; injection K as <-;
      (split; [reflexivity|]); cbn; intros ->; cbn; intros y; [intros [<-|[]]; discriminate|intros []].
  - unfold literal_full in *. destruct (starts_with teq x s pos); cbn in *; try discriminate.
    destruct (skip_search _ _ _) as [[[j t]|]|?|]; cbn in K; try discriminate; injection K as <-;
      (split; [reflexivity|]); cbn; intros ->; cbn; intros y; [intros [<-|[]]; discriminate|intros []].
  - unfold regexp_full in *. destruct (probe_re m s pos) as [[? ?]|]; cbn in *; try discriminate.
    destruct (skip_search _ _ _) as [[[j [? ?]]|]|?|]; cbn in K; try discriminate; injection K as <-.
    + split; [reflexivity|]. cbn. intros _ y [<-|[]]. discriminate.
    + split; [reflexivity|exact I].
  - (* fmap *) unfold fmap_full in *.
    pose proof (IH _ g s pos c ins left) as I1.
    destruct (full n g s pos c ins None) as [[o1|e1|c1]|?|]; cbn in H; try discriminate.
    1:{ unfold ok_fmap in H. destruct (f (ok_val o1)); discriminate. }
    2:{ unfold rec_fmap in H. destruct (mapM _ _); discriminate. }
    injection H as ->.
    destruct (full n g s pos c ins (Some left)) as [r1|?|]; cbn [obind] in K; try discriminate.
    specialize (I1 e r1 Ham Hg eq_refl He eq_refl). destruct r1 as [o1|e1|c1].
    + destruct I1 as [_ []].
    + cbn in K. injection K as <-. exact I1.
    + cbn in K. unfold rec_fmap in K. destruct (mapM (rep_fmap f) (rc_reps c1)) as [l|?|] eqn:M; cbn in K; try discriminate.
      injection K as <-. destruct I1 as [J1 J2]. split; [exact J1|]. cbn. intros Hl. specialize (J2 Hl).
      clear - M J2. revert l M. induction (rc_reps c1) as [|x l0 IH]; cbn; intros l M.
      * injection M as <-. intros ? [].
      * unfold rep_fmap in M at 1. destruct (f (r_val x)); cbn in M; try discriminate.
        destruct (mapM _ l0) eqn:M'; cbn in M; try discriminate. injection M as <-.
        intros y [<-|Hy]; [apply (J2 x); left; auto|]. eapply IH; eauto. intros; apply J2; right; auto.
  - (* alt *) destruct Hg as [Hg1 Hg2]. unfold alt_full in H, K.
    pose proof (IH _ g1 s pos c ins left) as I1. pose proof (IH _ g2 s pos c ins left) as I2.
    pose proof (not_ok_some n _ g1 s pos c ins left) as NO1.
    pose proof (not_ok_some n _ g2 s pos c ins left) as NO2.
    pose proof (fun rc => full_none_unconsumed E n _ g1 s pos c ins (RRec rc)) as U1.
    pose proof (fun rc => full_none_unconsumed E n _ g2 s pos c ins (RRec rc)) as U2.
    destruct (full n g1 s pos c ins None) as [[o1|[la xa ca]|[ra mn la xa ca]]|?|]; cbn [obind] in H, K; try discriminate.
    2:{ destruct ca; [discriminate|]. destruct (U1 _ eq_refl I eq_refl) as (? & ? & _). discriminate. }
    destruct ca; [injection H as <-; discriminate|].
    destruct (full n g2 s pos c ins None) as [[o2|[lb xb cb]|[rb mn lb xb cb]]|?|]; cbn [obind res_con er_con rc_con] in H, K; try discriminate.
    1:{ destruct (ok_con o2); discriminate. }
    2:{ destruct cb; [discriminate|]. destruct (U2 _ eq_refl I eq_refl) as (? & ? & _). discriminate. }
    destruct cb; [injection H as <-; discriminate|]. clear U1 U2 H.
    unfold alt_recover in K.
    destruct (full n g1 s pos c ins (Some left)) as [r1|?|]; cbn [obind] in K; try discriminate.
    destruct (full n g2 s pos c ins (Some left)) as [r2|?|]; cbn [obind] in K; try discriminate.
    specialize (I1 _ r1 Ham Hg1 eq_refl eq_refl eq_refl). specialize (I2 _ r2 Ham Hg2 eq_refl eq_refl eq_refl).
    destruct r1 as [?|?|c1]; [destruct I1 as [_ []]|..]; (destruct r2 as [?|?|c2]; [destruct I2 as [_ []]|..]);
      injection K as <-.
    + split; [reflexivity|exact I].
    + apply (opened_map left c2); auto.
    + apply (opened_map left c1); auto.
    + destruct I1 as [A1 A2], I2 as [B1 B2]. cbn in A1, B1, A2, B2.
      set (J := join_repairs c1 c2).
      assert (HJ : opened left (RRec J)).
      { unfold J, join_repairs. rewrite A1, B1. unfold opened.
        destruct (rc_min c1); cbn; (split; [reflexivity|]); intros Hl x Hx; apply in_app_or in Hx as [Hx|Hx];
          auto; apply filter_In in Hx as [Hx _]; auto. }
      apply (opened_map left J); auto.
  - (* bind *) destruct Hg as [Hg1 Hg2]. unfold bind_full in H, K.
    pose proof (IH _ g s pos c ins left) as I1.
    pose proof (fun o => ok_some n _ g s pos c ins None ins (Some left) o) as OS.
    destruct (full n g s pos c ins None) as [[o1|e1|c1]|?|]; cbn [obind] in H; try discriminate.
    + specialize (OS _ eq_refl). rewrite OS in K. cbn [obind] in K. destruct (ok_con o1) eqn:Q.
      * destruct (full n (f (ok_val o1)) s (ok_pos o1) (ok_ctx o1) ins (Some ins)) as [[?|e2|?]|?|]; cbn in H; try discriminate.
        injection H as <-. unfold er_prepend in He. destruct (er_con e2) eqn:Q2; cbn in He; rewrite ?Q2 in He; discriminate.
      * pose proof (IH _ (f (ok_val o1)) s (ok_pos o1) (ok_ctx o1) ins left) as I2.
        destruct (full n (f (ok_val o1)) s (ok_pos o1) (ok_ctx o1) ins None) as [[?|e2|?]|?|]; cbn in H; try discriminate.
        injection H as <-.
        destruct (full n (f (ok_val o1)) s (ok_pos o1) (ok_ctx o1) ins (Some left)) as [r2|?|]; cbn [obind] in K; try discriminate.
        assert (He2 : er_con e2 = false).
        { unfold er_prepend in He. destruct (er_con e2) eqn:Q2; auto. cbn in He. congruence. }
        specialize (I2 _ _ Ham (Hg2 _) eq_refl He2 eq_refl). injection K as <-. destruct r2 as [?|e3|c3].
        -- destruct I2 as [_ []].
        -- destruct I2 as [J1 _]. cbn in J1. split; [|exact I]. cbn. unfold er_prepend. rewrite J1. cbn.
           rewrite ?J1. reflexivity.
        -- destruct I2 as [J1 J2]. cbn in J1, J2. split; [cbn; rewrite J1; reflexivity|]. cbn.
           intros Hl x Hx. apply in_map_iff in Hx as (w & <- & Hw). cbn. auto.
    + injection H as ->.
      destruct (full n g s pos c ins (Some left)) as [r1|?|]; cbn [obind] in K; try discriminate.
      specialize (I1 _ _ Ham Hg1 eq_refl He eq_refl). destruct r1 as [?|e3|c3].
      * destruct I1 as [_ []].
      * injection K as <-. exact I1.
      * eapply opened_continue; eauto.
    + apply continue_ret in H as (? & _ & H). discriminate.
  - (* seq *) destruct Hg as [Hg1 Hg2]. unfold seq_full in H, K.
    pose proof (IH _ g1 s pos c ins left) as I1.
    pose proof (fun o => ok_some n _ g1 s pos c ins None ins (Some left) o) as OS.
    destruct (full n g1 s pos c ins None) as [[o1|e1|c1]|?|]; cbn [obind] in H; try discriminate.
    + specialize (OS _ eq_refl). rewrite OS in K. cbn [obind] in K. cbv zeta in H, K. destruct (ok_con o1) eqn:Q.
      * destruct (full n g2 s (ok_pos o1) (ok_ctx o1) ins (Some ins)) as [[?|e2|?]|?|]; cbn in H; try discriminate.
        -- injection H as <-. unfold er_prepend in He. destruct (er_con e2) eqn:Q2; cbn in He; rewrite ?Q2 in He; discriminate.
        -- unfold rec_fmap in H. destruct (mapM _ _); discriminate.
      * pose proof (IH _ g2 s (ok_pos o1) (ok_ctx o1) ins left) as I2.
        destruct (full n g2 s (ok_pos o1) (ok_ctx o1) ins None) as [[?|e2|?]|?|]; cbn in H; try discriminate.
        2:{ unfold rec_fmap in H. destruct (mapM _ _); discriminate. }
        injection H as <-.
        destruct (full n g2 s (ok_pos o1) (ok_ctx o1) ins (Some left)) as [r2|?|]; cbn [obind] in K; try discriminate.
        assert (He2 : er_con e2 = false).
        { unfold er_prepend in He. destruct (er_con e2) eqn:Q2; auto. cbn in He. congruence. }
        specialize (I2 _ _ Ham Hg2 eq_refl He2 eq_refl). destruct r2 as [?|e3|c3].
        -- destruct I2 as [_ []].
        -- cbn in K. injection K as <-.
           destruct I2 as [J1 _]. cbn in J1. split; [|exact I]. cbn. unfold er_prepend. rewrite J1. cbn.
           rewrite ?J1. reflexivity.
        -- destruct I2 as [J1 J2]. cbn in J1, J2, K. unfold rec_fmap in K.
           destruct (mapM _ (rc_reps c3)) as [l|?|] eqn:M; cbn in K; try discriminate. injection K as <-.
           split; [cbn; rewrite J1; reflexivity|]. cbn.
           intros Hl x Hx. apply in_map_iff in Hx as (w & <- & Hw). cbn. specialize (J2 Hl).
           clear - M J2 Hw. revert l M Hw. induction (rc_reps c3) as [|x l0 IH]; cbn; intros l M Hw.
           ++ injection M as <-. destruct Hw.
           ++ destruct (mapM _ l0) eqn:M'; cbn in M; try discriminate. injection M as <-.
              destruct Hw as [<-|Hw]; [apply (J2 x); left; auto|].
              eapply IH; [|reflexivity|exact Hw]. intros; apply J2; right; auto.
    + injection H as ->.
      destruct (full n g1 s pos c ins (Some left)) as [r1|?|]; cbn [obind] in K; try discriminate.
      specialize (I1 _ _ Ham Hg1 eq_refl He eq_refl). destruct r1 as [?|e3|c3].
      * destruct I1 as [_ []].
      * injection K as <-. exact I1.
      * eapply opened_continue; eauto.
    + apply continue_ret in H as (? & _ & H). discriminate.
  - (* maybe *) unfold maybe_full in *. rewrite H in K. injection K as <-. split; [exact He|exact I].
  - (* many *) rewrite H in K. injection K as <-. split; [exact He|exact I].
  - (* attempt *) cbn in Hn. congruence.
  - (* label *) unfold label_full in *.
    pose proof (IH _ g s pos c ins left) as I1.
    destruct (full n g s pos c ins None) as [[o1|e1|c1]|?|]; cbn in H; try discriminate. injection H as <-.
    destruct (full n g s pos c ins (Some left)) as [r1|?|]; cbn [obind] in K; try discriminate.
    assert (He1 : er_con e1 = false).
    { unfold er_set_exp in He. destruct (er_con e1) eqn:Q; auto. congruence. }
    specialize (I1 _ r1 Ham Hg eq_refl He1 eq_refl). injection K as <-. destruct r1 as [o1|e2|c1].
    + destruct I1 as [_ []].
    + destruct I1 as [J1 _]. cbn in J1. split; [|exact I]. cbn. unfold er_set_exp. rewrite J1. cbn. auto.
    + apply (opened_map left c1); auto.
  - (* recover *) unfold recover_full in *.
    pose proof (IH _ g s pos c ins left) as I1.
    destruct (full n g s pos c ins None) as [[o1|e1|c1]|?|]; cbn in H; try discriminate. injection H as <-.
    destruct (full n g s pos c ins (Some left)) as [r1|?|]; cbn [obind] in K; try discriminate.
    specialize (I1 _ r1 Ham Hg eq_refl He eq_refl). destruct r1 as [o1|e2|c1].
    + destruct I1 as [_ []].
    + injection K as <-. exact I1.
    + injection K as <-. apply (opened_map left c1); auto. intros x _. cbn. destruct (r_prio x); discriminate.
  - (* recover_with *) unfold recover_with_full in *.
    pose proof (fun r => IH _ g s pos c ins left e r Ham Hg H He) as I1.
    destruct (full n g s pos c ins (Some left)) as [r1|?|]; cbn [obind] in K; try discriminate.
    specialize (I1 r1 eq_refl). destruct r1 as [o1|e2|c1]; pose proof I1 as [J1 J2]; cbn in J1, J2; [contradiction| |];
      cbn [res_con] in K; rewrite J1 in K; destruct (Z.eqb_spec left 0); try (injection K as <-; exact I1);
      cbn in K; injection K as <-; split; try reflexivity; intros; contradiction.
  - (* recover_with_fn *) unfold recover_with_full in *.
    pose proof (fun r => IH _ g s pos c ins left e r Ham Hg H He) as I1.
    destruct (full n g s pos c ins (Some left)) as [r1|?|]; cbn [obind] in K; try discriminate.
    specialize (I1 r1 eq_refl). destruct r1 as [o1|e2|c1]; pose proof I1 as [J1 J2]; cbn in J1, J2; [contradiction| |];
      cbn [res_con] in K; rewrite J1 in K; destruct (Z.eqb_spec left 0); try (injection K as <-; exact I1);
      destruct (fn s pos); cbn in K; try discriminate; injection K as <-; split; try reflexivity; intros; contradiction.
  - (* block *) unfold block_full in *.
    pose proof (IH _ g s pos (set_mark (update_loc c s pos) (loc_col (ctx_loc (update_loc c s pos)))) ins left) as I1.
    destruct (full n g s pos _ ins None) as [[?|e1|?]|?|]; cbn in H; try discriminate. injection H as ->.
    destruct (full n g s pos _ ins (Some left)) as [r1|?|]; cbn [obind] in K; try discriminate.
    specialize (I1 _ r1 Ham Hg eq_refl He eq_refl). destruct r1 as [o1|e2|c1]; injection K as <-.
    + destruct I1 as [_ []].
    + exact I1.
    + apply (opened_map left c1); auto.
  - (* aligned *) unfold aligned_full in *. destruct (Z.eqb _ _).
    + eapply IH; eauto.
    + injection K as <-. split; [reflexivity|exact I].
  - (* indented *) unfold indented_full in *. destruct (Z.eqb _ _); [|injection K as <-; split; [reflexivity|exact I]].
    pose proof (IH _ g s pos (set_mark (update_loc c s pos) (loc_col (ctx_loc (update_loc c s pos)))) ins left) as I1.
    destruct (full n g s pos _ ins None) as [[?|e1|?]|?|]; cbn in H; try discriminate. injection H as ->.
    destruct (full n g s pos _ ins (Some left)) as [r1|?|]; cbn [obind] in K; try discriminate.
    specialize (I1 _ r1 Ham Hg eq_refl He eq_refl). destruct r1 as [o1|e2|c1]; injection K as <-.
    + destruct I1 as [_ []].
    + exact I1.
    + apply (opened_map left c1); auto.
  - (* delay *) eapply IH; eauto.
  - discriminate.
Qed.

Definition MN n : Prop := forall A (g : gram T V A) s pos c ins ins' rem rem' r r',
  allows_more ins ins' -> lrem rem rem' -> uses um am g ->
  full n g s pos c ins rem = Ret r -> full n g s pos c ins' rem' = Ret r' -> rrel um (live rem) r r'.

Lemma lrem_cases (P : option Z -> option Z -> Prop) :
  P None None -> (forall a b, allows_more a b -> P (Some a) (Some b)) ->
  forall rem rem', lrem rem rem' -> P rem rem'.
Proof. intros H1 H2 [a|] [b|]; cbn; intros; try contradiction; auto. Qed.

Lemma rrel_refl_err {A} lv e : rrel (T:=T) (A:=A) um lv (RErr e) (RErr e).
Proof. cbn. auto. Qed.

Lemma sub_insert {A} m m' (x : A) pos c l lab ex (tl tl' : list (repair T A)) :
  allows_more m m' -> sub tl tl' ->
  sub ((if Z.eqb m 0 then [] else [make_insert m x pos c l lab ex]) ++ tl)
      ((if Z.eqb m' 0 then [] else [make_insert m' x pos c l lab ex]) ++ tl').
Proof.
  intros H Ht. destruct (Z.eqb_spec m 0) as [->|N].
  - cbn. apply sub_app_r. exact Ht.
  - destruct (Z.eqb_spec m' 0) as [->|N']; [destruct (more_nonzero _ _ H N); reflexivity|].
    cbn. apply sub_keep; auto. split; [apply more_minus; auto|reflexivity].
Qed.

Lemma recover_with_rel {A} (p : pfull T A) mk lab s pos c ins ins' rem rem' r r' :
  um = true ->
  (forall x x', p s pos c ins rem = Ret x -> p s pos c ins' rem' = Ret x' -> rrel um (live rem) x x') ->
  lrem rem rem' ->
  recover_with_full p mk lab s pos c ins rem = Ret r -> recover_with_full p mk lab s pos c ins' rem' = Ret r' ->
  rrel um (live rem) r r'.
Proof.
  intros Hum Hp Hr H H'. unfold recover_with_full in *.
  destruct rem as [m|], rem' as [m'|]; cbn in Hr; try contradiction; [|auto].
  destruct (p s pos c ins (Some m)) as [x|?|]; cbn [obind] in H; try discriminate.
  destruct (p s pos c ins' (Some m')) as [x'|?|]; cbn [obind] in H'; try discriminate.
  specialize (Hp x x' eq_refl eq_refl).
  assert (M0 : forall m, Z.eqb m 0 = false -> m <> 0%Z) by (intros ? Q; apply Z.eqb_neq; auto).
  destruct x as [o|e|c0], x' as [o'|e'|c0']; cbn in Hp; try contradiction.
  - injection H as <-. injection H' as <-. cbn. congruence.
  - destruct Hp as [P1 P2]. cbn [res_con res_exp] in H, H'. rewrite <- P1 in H'. destruct (er_con e) eqn:Q.
    { injection H as <-. injection H' as <-. cbn. split; [congruence|]. intros; congruence. }
    destruct (Z.eqb m 0) eqn:Z1.
    { apply Z.eqb_eq in Z1. injection H as <-. destruct (Z.eqb m' 0) eqn:Z2.
      - injection H' as <-. cbn. split; [congruence|]. intros L; destruct (L Z1).
      - destruct (mk s pos); cbn in H'; try discriminate. injection H' as <-. cbn.
        split; [auto|split; [auto|split; [auto|]]]. intros L; destruct (L Z1). }
    pose proof (more_nonzero _ _ Hr (M0 _ Z1)) as N'. apply Z.eqb_neq in N'. rewrite N' in H'.
    rewrite (P2 (M0 _ Z1) eq_refl) in H. destruct (mk s pos); cbn in H, H'; try discriminate.
    injection H as <-. injection H' as <-. cbn. repeat split; auto.
    apply sub_keep; auto with sub. split; [apply more_minus; auto|reflexivity].
  - destruct Hp as (P0 & P1 & P2 & P3). cbn [res_con res_exp] in H, H'. rewrite <- P1 in H'. destruct (er_con e) eqn:Q.
    { injection H as <-. injection H' as <-. cbn. split; [auto|split; [congruence|split; [auto|]]]. intros; congruence. }
    destruct (Z.eqb m 0) eqn:Z1; [|destruct (P3 (M0 _ Z1) eq_refl)].
    apply Z.eqb_eq in Z1. injection H as <-. destruct (Z.eqb m' 0) eqn:Z2.
    + injection H' as <-. cbn. split; [auto|split; [congruence|split; [auto|]]]. intros L; destruct (L Z1).
    + destruct (mk s pos); cbn in H'; try discriminate. injection H' as <-. cbn.
      split; [auto|split; [auto|split; [auto|]]]. intros L; destruct (L Z1).
  - destruct Hp as (P1 & P2 & P3 & P4). cbn [res_con res_exp] in H, H'. rewrite <- P1 in H'. destruct (rc_con c0) eqn:Q.
    { injection H as <-. injection H' as <-. cbn. rewrite Q, <- P1. repeat split; auto; congruence. }
    destruct (Z.eqb m 0) eqn:Z1.
    { apply Z.eqb_eq in Z1. injection H as <-. destruct (Z.eqb m' 0) eqn:Z2.
      - injection H' as <-. cbn. rewrite Q, <- P1. repeat split; auto; contradiction.
      - destruct (mk s pos); cbn in H'; try discriminate. injection H' as <-. cbn. rewrite Q.
        repeat split; auto with sub; contradiction. }
    pose proof (more_nonzero _ _ Hr (M0 _ Z1)) as N'. apply Z.eqb_neq in N'. rewrite N' in H'.
    destruct (P4 (M0 _ Z1) eq_refl) as [L1 L2].
    destruct (mk s pos); cbn in H, H'; try discriminate.
    injection H as <-. injection H' as <-. rewrite L2. cbn. repeat split; auto.
    apply sub_keep; auto with sub. split; [apply more_minus; auto|reflexivity].
Qed.

Lemma many_rel n (IH : MN n) A (g : gram T V A) s ins ins' :
  uses um am g -> allows_more ins ins' ->
  forall m con v pos c r r',
  many_full (full n g) m con v s pos c ins = Ret r -> many_full (full n g) m con v s pos c ins' = Ret r' ->
  rrel um True r r'.
Proof.
  intros Hg Hi m. induction m as [|m IHm]; intros con v pos c r r' H H'; cbn in H, H'; [discriminate|].
  pose proof (fun x x' => IH _ g s pos c ins ins' None None x x' Hi I Hg) as I1. cbn [live] in I1.
  destruct (full n g s pos c ins None) as [x|?|]; cbn [obind] in H; try discriminate.
  destruct (full n g s pos c ins' None) as [x'|?|]; cbn [obind] in H'; try discriminate.
  specialize (I1 x x' eq_refl eq_refl).
  destruct x as [o|e|c0], x' as [o'|e'|c0']; cbn in I1; try contradiction.
  - subst o'. destruct (ok_con o); [|discriminate]. eapply IHm; eauto.
  - destruct I1 as [P1 P2]. rewrite <- P1 in H'. destruct (er_con e) eqn:Q; injection H as <-; injection H' as <-.
    + cbn. split; [congruence|]. intros; congruence.
    + cbn. rewrite P2; auto.
  - pose proof I1 as (_ & _ & _ & P3). destruct (er_con e) eqn:Q; [|destruct (P3 I eq_refl)].
    injection H as <-. eapply (rrel_continue_err (A:=A)); [|exact H']. cbn. rewrite Q. exact I1.
  - eapply rrel_continue; [exact Hi| |exact I1|exact H|exact H'].
    intros v0 p0 k0 k k' y y' _ Y Y'. apply (rrel_crel um True). eapply IHm; [exact Y|exact Y'].
Qed.

Lemma join_rel lv {A} (a a' b b' : recr T A) x :
  rrel um lv (RRec a) (RRec a') -> rrel um lv (RRec b) (RRec b') ->
  rrel um lv (RRec (rec_set_exp x (join_repairs a b))) (RRec (rec_set_exp x (join_repairs a' b'))).
Proof.
  intros (A1 & A2 & A3 & A4) (B1 & B2 & B3 & B4).
  set (J := join_repairs a b). set (J' := join_repairs a' b').
  assert (HJ : rc_con J = rc_con J' /\ rc_min J = rc_min J' /\ sub (rc_reps J) (rc_reps J') /\
    (lv -> rc_con J = false -> rc_loc J = rc_loc J')).
  { unfold J, J', join_repairs. rewrite <- A1, <- A2, <- B1, <- B2.
    assert (Hf : forall (f : option nat -> bool), sub (rc_reps a ++ filter (fun r => f (r_prio r)) (rc_reps b))
        (rc_reps a' ++ filter (fun r => f (r_prio r)) (rc_reps b'))).
    { intros f. apply sub_app; auto. apply sub_filter; auto. intros ? ? L. rewrite (lrep_prio _ _ L). reflexivity. }
    destruct (rc_min a) as [mp|].
    - specialize (Hf (fun p => match p with Some p => Nat.ltb p mp | None => false end)).
      destruct (rc_con a) eqn:QA; cbn; [repeat split; auto; congruence|].
      destruct (rc_con b) eqn:QB; cbn; [repeat split; auto; congruence|].
      repeat split; auto. intros L _. apply A4; auto.
    - specialize (Hf (fun p => match p with Some p => true | None => false end)).
      destruct (rc_con a) eqn:QA; cbn; [repeat split; auto; congruence|].
      destruct (rc_con b) eqn:QB; cbn; [repeat split; auto; congruence|].
      repeat split; auto. intros L _. apply A4; auto. }
  destruct HJ as (J1 & J2 & J3 & J4). cbn. rewrite <- J1. repeat split; auto.
  - apply sub_map; auto. apply lrep_set_exp.
  - destruct (rc_con J); [discriminate|reflexivity].
Qed.

Lemma rec_rel lv {A} (a a' : recr T A) x :
  rrel um lv (RRec a) (RRec a') -> rrel um lv (RRec (rec_set_exp x a)) (RRec (rec_set_exp x a')).
Proof. intros H. apply (rrel_set_exp um lv x (RRec a) (RRec a') H). Qed.

Lemma main_rel n : MN n.
Proof.
  induction n as [|n IH]; intros A g s pos c ins ins' rem rem' r r' Hi Hr Hg H H'; [discriminate|].
  destruct g; cbn [Grammar.full] in H, H'; simpl in Hg; destruct Hg as [Hn Hg].
  - injection H as <-. injection H' as <-. reflexivity.
  - unfold purefn_full in *. destruct (f tt); try discriminate. injection H as <-. injection H' as <-. reflexivity.
  - injection H as <-. injection H' as <-. cbn. auto.
  - unfold eof_full in *. destruct (Nat.eqb _ _).
    + injection H as <-. injection H' as <-. reflexivity.
    + destruct rem, rem'; cbn in Hr; try contradiction; injection H as <-; injection H' as <-; cbn; auto.
      repeat split; auto. apply sub_keep; auto with sub. split; [exact Hi|reflexivity].
  - unfold satisfy_full in *. destruct (probe_tok test s pos) as [[t|]|?|]; cbn in *; try discriminate.
    + injection H as <-. injection H' as <-. reflexivity.
    + destruct rem, rem'; cbn in Hr; try contradiction; [|injection H as <-; injection H' as <-; cbn; auto].
      destruct (skip_search _ _ _) as [[[j t]|]|?|]; cbn in H, H'; try discriminate; injection H as <-; injection H' as <-; cbn; auto.
      repeat split; auto. apply sub_keep; auto with sub. split; [exact Hi|reflexivity].
  - unfold sym_full in *. destruct (probe_sym teq x s pos) as [[t|]|?|]; cbn [obind] in *; try discriminate.
    + injection H as <-. injection H' as <-. reflexivity.
    + destruct rem as [m|], rem' as [m'|]; cbn in Hr; try contradiction; [|injection H as <-; injection H' as <-; cbn; auto].
      destruct (skip_search _ _ _) as [[[j t]|]|?|]; cbn [obind] in H, H'; try discriminate; injection H as <-; injection H' as <-;
        repeat split.
      * cbn [rc_reps]. apply sub_insert; auto. apply sub_keep; auto with sub. split; [exact Hi|reflexivity].
      * cbn [rc_reps]. pose proof (sub_insert m m' x pos c (get_loc c s pos) l [l] [] [] Hr (sub_nil _)) as S.
        rewrite !app_nil_r in S. exact S.
  - unfold literal_full in *. destruct (starts_with teq x s pos); cbn [obind] in *; try discriminate.
    + injection H as <-. injection H' as <-. reflexivity.
    + destruct rem as [m|], rem' as [m'|]; cbn in Hr; try contradiction; [|injection H as <-; injection H' as <-; cbn; auto].
      destruct (skip_search _ _ _) as [[[j t]|]|?|]; cbn [obind] in H, H'; try discriminate; injection H as <-; injection H' as <-;
        repeat split.
      * cbn [rc_reps]. apply sub_insert; auto. apply sub_keep; auto with sub. split; [exact Hi|reflexivity].
      * cbn [rc_reps]. pose proof (sub_insert m m' x pos c (get_loc c s pos) l [l] [] [] Hr (sub_nil _)) as S.
        rewrite !app_nil_r in S. exact S.
  - unfold regexp_full in *. destruct (probe_re m s pos) as [[? ?]|]; cbn in *; try discriminate.
    + injection H as <-. injection H' as <-. reflexivity.
    + destruct rem, rem'; cbn in Hr; try contradiction; [|injection H as <-; injection H' as <-; cbn; auto].
      destruct (skip_search _ _ _) as [[[j [? ?]]|]|?|]; cbn in H, H'; try discriminate; injection H as <-; injection H' as <-; cbn; auto.
      repeat split; auto. apply sub_keep; auto with sub. split; [exact Hi|reflexivity].
  - (* fmap *) unfold fmap_full in *.
    pose proof (fun x x' => IH _ g s pos c ins ins' rem rem' x x' Hi Hr Hg) as I1.
    destruct (full n g s pos c ins rem) as [x|?|]; cbn [obind] in H; try discriminate.
    destruct (full n g s pos c ins' rem') as [x'|?|]; cbn [obind] in H'; try discriminate.
    specialize (I1 x x' eq_refl eq_refl). eapply rrel_fmap; eauto.
  - (* alt *) destruct Hg as [Hg1 Hg2]. unfold alt_full in H, H'.
    pose proof (fun x x' => IH _ g1 s pos c ins ins' None None x x' Hi I Hg1) as N1.
    pose proof (fun x x' => IH _ g2 s pos c ins ins' None None x x' Hi I Hg2) as N2.
    pose proof (fun x x' => IH _ g1 s pos c ins ins' rem rem' x x' Hi Hr Hg1) as I1.
    pose proof (fun x x' => IH _ g2 s pos c ins ins' rem rem' x x' Hi Hr Hg2) as I2.
    pose proof (fun left e r Ham => opened_all n _ g1 s pos c ins left e r Ham Hg1) as O1.
    pose proof (fun left e r Ham => opened_all n _ g2 s pos c ins left e r Ham Hg2) as O2.
    pose proof (fun rc => full_none_unconsumed E n _ g1 s pos c ins (RRec rc)) as U1.
    pose proof (fun rc => full_none_unconsumed E n _ g2 s pos c ins (RRec rc)) as U2.
    destruct (full n g1 s pos c ins None) as [x1|?|]; cbn [obind] in H; try discriminate.
    destruct (full n g1 s pos c ins' None) as [x1'|?|]; cbn [obind] in H'; try discriminate.
    specialize (N1 _ _ eq_refl eq_refl).
    destruct x1 as [o1|[la xa ca]|[ra mn la xa ca]], x1' as [o1'|[la' xa' ca']|[ra' mn' la' xa' ca']];
      try (destruct N1; fail).
    1:{ injection H as <-. injection H' as <-. exact N1. }
    2:{ destruct N1 as (P0 & P1 & P2 & P3). cbn in P1, P3. subst ca'. destruct ca; [|destruct (P3 I eq_refl)].
        injection H as <-. injection H' as <-. cbn. repeat split; auto; intros; discriminate. }
    2:{ destruct ca; [|destruct (U1 _ eq_refl I eq_refl) as (? & ? & _); discriminate].
        pose proof N1 as (P1 & _). cbn in P1. subst ca'. injection H as <-. injection H' as <-.
        eapply rrel_weak; [|exact N1]. auto. }
    destruct N1 as (P1 & P2). cbn in P1, P2. subst ca'. destruct ca.
    { injection H as <-. injection H' as <-. cbn. split; auto; intros; discriminate. }
    specialize (P2 I eq_refl). injection P2 as <- <-. clear U1.
    destruct (full n g2 s pos c ins None) as [x2|?|]; cbn [obind] in H; try discriminate.
    destruct (full n g2 s pos c ins' None) as [x2'|?|]; cbn [obind] in H'; try discriminate.
    specialize (N2 _ _ eq_refl eq_refl).
    destruct x2 as [o2|[lb xb cb]|[rb mb lb xb cb]], x2' as [o2'|[lb' xb' cb']|[rb' mb' lb' xb' cb']];
      try (destruct N2; fail); cbn [res_con er_con rc_con] in H, H'.
    1:{ cbn in N2. subst o2'. destruct (ok_con o2); injection H as <-; injection H' as <-; reflexivity. }
    2:{ destruct N2 as (P0 & P1 & P2 & P3). cbn in P1, P3. subst cb'. destruct cb; [|destruct (P3 I eq_refl)].
        injection H as <-. injection H' as <-. cbn. repeat split; auto; intros; discriminate. }
    2:{ destruct cb; [|destruct (U2 _ eq_refl I eq_refl) as (? & ? & _); discriminate].
        pose proof N2 as (P1 & _). cbn in P1. subst cb'. injection H as <-. injection H' as <-.
        eapply rrel_weak; [|exact N2]. auto. }
    destruct N2 as (P1 & P2). cbn in P1, P2. subst cb'. destruct cb.
    { injection H as <-. injection H' as <-. cbn. split; auto; intros; discriminate. }
    specialize (P2 I eq_refl). injection P2 as <- <-. clear U2. cbn [res_exp er_exp] in H, H'.
    unfold alt_recover in H, H'.
    destruct rem as [left|], rem' as [left'|]; cbn in Hr; try contradiction;
      [|injection H as <-; injection H' as <-; cbn; auto].
    specialize (O1 left). specialize (O2 left).
    destruct (full n g1 s pos c ins (Some left)) as [y1|?|]; cbn [obind] in H; try discriminate.
    destruct (full n g1 s pos c ins' (Some left')) as [y1'|?|]; cbn [obind] in H'; try discriminate.
    destruct (full n g2 s pos c ins (Some left)) as [y2|?|]; cbn [obind] in H; try discriminate.
    destruct (full n g2 s pos c ins' (Some left')) as [y2'|?|]; cbn [obind] in H'; try discriminate.
    specialize (I1 _ _ eq_refl eq_refl). specialize (I2 _ _ eq_refl eq_refl).
    assert (HO1 : am = false -> opened left y1) by (intros Q; eapply O1; eauto).
    assert (HO2 : am = false -> opened left y2) by (intros Q; eapply O2; eauto).
    assert (Hex : um = true -> am = false) by (intros ->; exact Hmode).
    clear O1 O2.
    destruct y1 as [oa|ea|a], y1' as [oa'|ea'|a']; try (destruct I1; fail);
    destruct y2 as [ob|eb|b], y2' as [ob'|eb'|b']; try (destruct I2; fail);
      injection H as <-; injection H' as <-;
      try (cbn; split; auto; fail); try (apply rec_rel; assumption).
    (* a clash of RErr and RRec forces um *)
    all: try (apply join_rel; assumption).
    + destruct I2 as (Q0 & Q1 & Q2 & Q3). destruct (HO2 (Hex Q0)) as [C1 _]. cbn in C1.
      cbn. rewrite <- Q1, C1. repeat split; auto.
    + destruct I2 as (Q0 & Q1 & Q2 & Q3). destruct (HO2 (Hex Q0)) as [C1 _]. cbn in C1.
      cbn. rewrite <- Q1, C1. repeat split; auto.
    + destruct I1 as (Q0 & Q1 & Q2 & Q3). destruct (HO1 (Hex Q0)) as [C1 _]. cbn in C1.
      cbn. rewrite <- Q1, C1. repeat split; auto.
    + destruct I1 as (Q0 & Q1 & Q2 & Q3). destruct (HO1 (Hex Q0)) as [C1 _]. cbn in C1.
      cbn. rewrite <- Q1, C1. repeat split; auto.
    + destruct I1 as (Q0 & Q1 & Q2 & Q3). destruct (HO1 (Hex Q0)) as [C1 _]. cbn in C1.
      destruct I2 as (R0 & R1 & R2 & R3). destruct (HO2 (Hex Q0)) as [D1 _]. cbn in D1.
      rewrite C1 in *. rewrite D1 in *.
      unfold join_repairs. rewrite Q2, R2, <- Q1, <- R1. cbn. rewrite <- ?Q1, <- ?R1. repeat split; auto.
    + destruct I1 as (Q0 & Q1 & Q2 & Q3). destruct (HO1 (Hex Q0)) as [C1 _]. cbn in C1.
      destruct I2 as (R1 & R2 & R3 & R4). destruct (HO2 (Hex Q0)) as [D1 D2]. cbn in D1.
      rewrite C1 in *. rewrite D1 in *.
      assert (L0 : left = 0%Z) by (destruct (Z.eq_dec left 0); auto; destruct (Q3 n0 eq_refl)).
      unfold join_repairs. rewrite Q2, <- ?Q1, <- ?R1. cbn. rewrite ?D1, <- ?R1, <- ?Q1. cbn. repeat split; auto.
      * apply sub_map; [apply lrep_set_exp|]. apply sub_app_r.
        rewrite <- (sub_filter_all (fun r => match r_prio r with Some _ => true | None => false end) (rc_reps b)).
        -- apply sub_filter; auto. intros ? ? L. rewrite (lrep_prio _ _ L). reflexivity.
        -- intros x Hx. specialize (D2 L0 x Hx). destruct (r_prio x); congruence.
      * contradiction.
    + destruct I2 as (Q0 & Q1 & Q2 & Q3). destruct (HO2 (Hex Q0)) as [C1 _]. cbn in C1.
      destruct I1 as (R1 & R2 & R3 & R4). destruct (HO1 (Hex Q0)) as [D1 D2]. cbn in D1.
      rewrite C1 in *. rewrite D1 in *.
      assert (L0 : left = 0%Z) by (destruct (Z.eq_dec left 0); auto; destruct (Q3 n0 eq_refl)).
      unfold join_repairs. rewrite Q2, <- Q1, <- R1, <- R2. destruct (rc_min a) as [mp|] eqn:Qm;
        cbn; rewrite D1, Qm; rewrite <- ?R1, <- ?Q1; cbn; repeat split; auto;
        try (apply sub_map; [apply lrep_set_exp|]; apply sub_app_l; auto); contradiction.
  - (* bind *) destruct Hg as [Hg1 Hg2]. unfold bind_full in H, H'.
    pose proof (fun x x' => IH _ g s pos c ins ins' rem rem' x x' Hi Hr Hg1) as I1.
    destruct (full n g s pos c ins rem) as [x|?|]; cbn [obind] in H; try discriminate.
    destruct (full n g s pos c ins' rem') as [x'|?|]; cbn [obind] in H'; try discriminate.
    specialize (I1 x x' eq_refl eq_refl).
    destruct x as [o|e|a], x' as [o'|e'|a']; try (destruct I1; fail).
    + cbn in I1. subst o'. destruct (ok_con o) eqn:Q.
      * pose proof (fun y y' => IH _ (f (ok_val o)) s (ok_pos o) (ok_ctx o) ins ins' (Some ins) (Some ins') y y' Hi Hi (Hg2 _)) as I2.
        destruct (full n (f (ok_val o)) s (ok_pos o) (ok_ctx o) ins (Some ins)) as [y|?|]; cbn [obind] in H; try discriminate.
        destruct (full n (f (ok_val o)) s (ok_pos o) (ok_ctx o) ins' (Some ins')) as [y'|?|]; cbn [obind] in H'; try discriminate.
        specialize (I2 y y' eq_refl eq_refl). injection H as <-. injection H' as <-.
        eapply rrel_prepend; [|exact I2]. discriminate.
      * pose proof (fun y y' => IH _ (f (ok_val o)) s (ok_pos o) (ok_ctx o) ins ins' rem rem' y y' Hi Hr (Hg2 _)) as I2.
        destruct (full n (f (ok_val o)) s (ok_pos o) (ok_ctx o) ins rem) as [y|?|]; cbn [obind] in H; try discriminate.
        destruct (full n (f (ok_val o)) s (ok_pos o) (ok_ctx o) ins' rem') as [y'|?|]; cbn [obind] in H'; try discriminate.
        specialize (I2 y y' eq_refl eq_refl). injection H as <-. injection H' as <-.
        eapply rrel_prepend; [|exact I2]. auto.
    + injection H as <-. injection H' as <-. exact I1.
    + injection H as <-. eapply rrel_continue_err; [exact I1|exact H'].
    + eapply rrel_continue; [exact Hi| |exact I1|exact H|exact H'].
      intros v0 p0 k0 k k' y y' Hk Y Y'. apply (rrel_crel um (live (Some k))).
      eapply IH; [exact Hi|exact (Hk : lrem (Some k) (Some k'))|apply Hg2|exact Y|exact Y'].
  - (* seq *) destruct Hg as [Hg1 Hg2]. unfold seq_full in H, H'.
    pose proof (fun x x' => IH _ g1 s pos c ins ins' rem rem' x x' Hi Hr Hg1) as I1.
    destruct (full n g1 s pos c ins rem) as [x|?|]; cbn [obind] in H; try discriminate.
    destruct (full n g1 s pos c ins' rem') as [x'|?|]; cbn [obind] in H'; try discriminate.
    specialize (I1 x x' eq_refl eq_refl).
    destruct x as [o|e|a], x' as [o'|e'|a']; try (destruct I1; fail).
    + cbn in I1. subst o'. cbv zeta in H, H'.
      assert (Hr2 : lrem (if ok_con o then Some ins else rem) (if ok_con o then Some ins' else rem'))
        by (destruct (ok_con o); auto).
      pose proof (fun y y' => IH _ g2 s (ok_pos o) (ok_ctx o) ins ins' _ _ y y' Hi Hr2 Hg2) as I2.
      destruct (full n g2 s (ok_pos o) (ok_ctx o) ins _) as [y|?|]; cbn [obind] in H; try discriminate.
      destruct (full n g2 s (ok_pos o) (ok_ctx o) ins' _) as [y'|?|]; cbn [obind] in H'; try discriminate.
      specialize (I2 y y' eq_refl eq_refl).
      destruct (res_fmap _ y) as [z|?|] eqn:F1; cbn in H; try discriminate.
      destruct (res_fmap _ y') as [z'|?|] eqn:F2; cbn in H'; try discriminate.
      injection H as <-. injection H' as <-.
      eapply rrel_prepend; [|eapply rrel_fmap; [exact I2|exact F1|exact F2]].
      intros ->. auto.
    + injection H as <-. injection H' as <-. exact I1.
    + injection H as <-. eapply rrel_continue_err; [exact I1|exact H'].
    + eapply rrel_continue; [exact Hi| |exact I1|exact H|exact H'].
      intros v0 p0 k0 k k' y y' Hk Y Y'. apply (rrel_crel um (live (Some k))).
      eapply IH; [exact Hi|exact (Hk : lrem (Some k) (Some k'))|apply Hg2|exact Y|exact Y'].
  - (* maybe *) unfold maybe_full in *.
    pose proof (fun x x' => IH _ g s pos c ins ins' None None x x' Hi I Hg) as I1. cbn [live] in I1.
    destruct (full n g s pos c ins None) as [x|?|]; cbn [obind] in H; try discriminate.
    destruct (full n g s pos c ins' None) as [x'|?|]; cbn [obind] in H'; try discriminate.
    specialize (I1 x x' eq_refl eq_refl). apply (rrel_weak um True); [auto|].
    destruct x as [o|e|a], x' as [o'|e'|a']; try (destruct I1; fail).
    + eapply rrel_fmap; eauto.
    + pose proof I1 as [P1 P2]. cbn [res_con res_exp] in H, H'. rewrite <- P1 in H'. destruct (er_con e) eqn:Q.
      * eapply rrel_fmap; [exact I1|exact H|exact H'].
      * injection H as <-. injection H' as <-. rewrite P2; auto. reflexivity.
    + pose proof I1 as (P0 & P1 & P2 & P3). cbn [res_con res_exp] in H, H'. rewrite <- P1 in H'.
      destruct (er_con e) eqn:Q; [|destruct (P3 I eq_refl)].
      eapply rrel_fmap; [exact I1|exact H|exact H'].
    + pose proof I1 as (P0 & P1 & P2 & P3). cbn [res_con res_exp] in H, H'. rewrite <- P0 in H'.
      destruct (rc_con a) eqn:Q.
      * eapply rrel_fmap; [exact I1|exact H|exact H'].
      * injection H as <-. injection H' as <-. destruct (P3 I eq_refl) as [_ ->]. reflexivity.
  - (* many *) apply (rrel_weak um True); [auto|]. eapply many_rel; eauto.
  - (* attempt *) unfold attempt_full in *.
    destruct rem as [left|], rem' as [left'|]; cbn in Hr; try contradiction.
    + eapply IH; [exact Hi|exact (Hr : lrem (Some left) (Some left'))|exact Hg|exact H|exact H'].
    + destruct (fast E n g s pos c) as [[?|?]|?|]; cbn in H, H'; try discriminate;
        injection H as <-; injection H' as <-; cbn; auto.
  - (* label *) unfold label_full in *.
    pose proof (fun x x' => IH _ g s pos c ins ins' rem rem' x x' Hi Hr Hg) as I1.
    destruct (full n g s pos c ins rem) as [y|?|]; cbn [obind] in H; try discriminate.
    destruct (full n g s pos c ins' rem') as [y'|?|]; cbn [obind] in H'; try discriminate.
    specialize (I1 y y' eq_refl eq_refl). injection H as <-. injection H' as <-. apply rrel_set_exp. exact I1.
  - (* recover *) unfold recover_full in *.
    pose proof (fun x x' => IH _ g s pos c ins ins' rem rem' x x' Hi Hr Hg) as I1.
    destruct (full n g s pos c ins rem) as [y|?|]; cbn [obind] in H; try discriminate.
    destruct (full n g s pos c ins' rem') as [y'|?|]; cbn [obind] in H'; try discriminate.
    specialize (I1 y y' eq_refl eq_refl).
    destruct y as [o|e|a], y' as [o'|e'|a']; try (destruct I1; fail); injection H as <-; injection H' as <-;
      try exact I1.
    destruct I1 as (P0 & P1 & P2 & P3). cbn. repeat split; auto; try (apply P3; auto).
    apply sub_map; auto. apply lrep_set_prio.
  - (* recover_with *)
    eapply recover_with_rel; [exact Hn| |exact Hr|exact H|exact H'].
    intros y y' Y Y'. eapply IH; eauto.
  - (* recover_with_fn *)
    eapply recover_with_rel; [exact Hn| |exact Hr|exact H|exact H'].
    intros y y' Y Y'. eapply IH; eauto.
  - (* block *) unfold block_full in *. cbv zeta in H, H'.
    pose proof (fun x x' => IH _ g s pos (set_mark (update_loc c s pos) (loc_col (ctx_loc (update_loc c s pos)))) ins ins' rem rem' x x' Hi Hr Hg) as I1.
    destruct (full n g s pos _ ins rem) as [y|?|]; cbn [obind] in H; try discriminate.
    destruct (full n g s pos _ ins' rem') as [y'|?|]; cbn [obind] in H'; try discriminate.
    specialize (I1 y y' eq_refl eq_refl). injection H as <-. injection H' as <-. apply rrel_set_ctx. exact I1.
  - (* aligned *) unfold aligned_full in *. cbv zeta in H, H'. destruct (Z.eqb _ _).
    + eapply IH; eauto.
    + injection H as <-. injection H' as <-. cbn. auto.
  - (* indented *) unfold indented_full in *. cbv zeta in H, H'.
    destruct (Z.eqb _ _); [|injection H as <-; injection H' as <-; cbn; auto].
    pose proof (fun x x' => IH _ g s pos (set_mark (update_loc c s pos) (loc_col (ctx_loc (update_loc c s pos)))) ins ins' rem rem' x x' Hi Hr Hg) as I1.
    destruct (full n g s pos _ ins rem) as [y|?|]; cbn [obind] in H; try discriminate.
    destruct (full n g s pos _ ins' rem') as [y'|?|]; cbn [obind] in H'; try discriminate.
    specialize (I1 y y' eq_refl eq_refl). injection H as <-. injection H' as <-. apply rrel_set_ctx. exact I1.
  - (* delay *) eapply IH; eauto.
  - discriminate.
Qed.
End Main.
