(** join_repairs and the alternatives: dead priority logic, associativity. *)
From Verif Require Export BindAssoc.

Section AltLaws.
Context {T : Type}.

(** priorities are None or 0 and the smallest skip is at least one token *)
Definition rec_prios {A} (rc : recr T A) : Prop :=
  (forall r, In r (rc_reps rc) -> r_prio r = None \/ r_prio r = Some 0) /\
  (forall m, rc_min rc = Some m -> 1 <= m).
Definition res_prios {A} (r : res T A) : Prop :=
  match r with RRec rc => rec_prios rc | _ => True end.

Definition has_prio {A} (r : repair T A) : bool :=
  match r_prio r with Some _ => true | None => false end.
Definition omin (a b : option nat) : option nat :=
  match a, b with
  | Some x, Some y => if Nat.ltb y x then Some y else Some x
  | Some x, None => Some x
  | None, b => b
  end.
Lemma omin_assoc a b c : omin (omin a b) c = omin a (omin b c).
Proof.
  destruct a as [a|], b as [b|], c as [c|]; simpl; auto;
    repeat (match goal with |- context [Nat.ltb ?x ?y] => destruct (Nat.ltb_spec x y); simpl end);
    auto; try lia; f_equal; lia.
Qed.

Lemma filter_ext_in' {X} (f g : X -> bool) l : (forall x, In x l -> f x = g x) -> filter f l = filter g l.
Proof.
  induction l as [|x l IH]; simpl; intros H; auto. rewrite H, IH; auto.
Qed.

(** the normal form of join_repairs *)
Definition join_nf {A} (a b : recr T A) : recr T A :=
  Recd (rc_reps a ++ filter has_prio (rc_reps b)) (omin (rc_min a) (rc_min b))
    (if rc_con a then rc_loc a else if rc_con b then rc_loc b else rc_loc a)
    (if rc_con a then rc_exp a else if rc_con b then rc_exp b else Append (rc_exp a) (rc_exp b))
    (rc_con a || rc_con b).

Lemma join_is_nf {A} (a b : recr T A) : rec_prios a -> rec_prios b -> join_repairs a b = join_nf a b.
Proof.
  intros [Ha1 Ha2] [Hb1 Hb2]. unfold join_repairs, join_nf.
  destruct (rc_min a) as [mp|] eqn:Hm.
  - assert (Hf : filter (fun r => match r_prio r with Some p => Nat.ltb p mp | None => false end) (rc_reps b)
                 = filter has_prio (rc_reps b)).
    { apply filter_ext_in'. intros r Hr. unfold has_prio. destruct (Hb1 r Hr) as [->| ->]; auto.
      apply Nat.ltb_lt. specialize (Ha2 _ eq_refl). lia. }
    rewrite Hf. simpl. destruct (rc_con a), (rc_con b); reflexivity.
  - simpl. destruct (rc_con a), (rc_con b); reflexivity.
Qed.

Lemma prios_join {A} (a b : recr T A) : rec_prios a -> rec_prios b -> rec_prios (join_repairs a b).
Proof.
  intros Ha Hb. rewrite join_is_nf by auto. destruct Ha as [Ha1 Ha2], Hb as [Hb1 Hb2]. split; simpl.
  - intros r Hr. apply in_app_or in Hr as [Hr|Hr]; auto. apply filter_In in Hr as [Hr _]; auto.
  - intros m Hm. destruct (rc_min a) as [x|], (rc_min b) as [y|]; simpl in Hm; auto.
    destruct (Nat.ltb y x); injection Hm as <-; auto.
Qed.
Lemma prios_set_exp {A} x (a : recr T A) : rec_prios a -> rec_prios (rec_set_exp x a).
Proof.
  intros [H1 H2]. split; simpl; auto. intros r Hr. apply in_map_iff in Hr as (r0 & <- & Hr). simpl. auto.
Qed.

Lemma ops_set_2 ops x y : ops_set_expected (ops_set_expected ops x) y = ops_set_expected ops y.
Proof.
  unfold ops_set_expected. rewrite map_map. apply map_ext. intros [o l e []]; reflexivity.
Qed.
Lemma rep_set_exp_2 {A} x y (r : repair T A) : rep_set_exp y (rep_set_exp x r) = rep_set_exp y r.
Proof.
  unfold rep_set_exp; simpl. rewrite ops_set_2. destruct (r_con r); reflexivity.
Qed.
Lemma rec_set_exp_2 {A} x y (r : recr T A) : rec_set_exp y (rec_set_exp x r) = rec_set_exp y r.
Proof.
  unfold rec_set_exp; simpl. rewrite map_map. rewrite (map_ext _ _ (rep_set_exp_2 x y)).
  destruct (rc_con r); reflexivity.
Qed.
Lemma filter_map_prio {A} x (l : list (repair T A)) :
  filter has_prio (map (rep_set_exp x) l) = map (rep_set_exp x) (filter has_prio l).
Proof.
  induction l as [|r l IH]; simpl; auto. unfold has_prio in *. simpl.
  destruct (r_prio r); simpl; rewrite IH; reflexivity.
Qed.
Lemma nf_set_l {A} x y (a b : recr T A) :
  rec_set_exp y (join_nf (rec_set_exp x a) b) = rec_set_exp y (join_nf a b).
Proof.
  unfold rec_set_exp, join_nf; simpl. rewrite !map_app, map_map.
  rewrite (map_ext _ _ (rep_set_exp_2 x y)). destruct (rc_con a); simpl; auto. destruct (rc_con b); auto.
Qed.
Lemma nf_set_r {A} x y (a b : recr T A) :
  rec_set_exp y (join_nf a (rec_set_exp x b)) = rec_set_exp y (join_nf a b).
Proof.
  unfold rec_set_exp, join_nf; simpl. rewrite filter_map_prio, !map_app, map_map.
  rewrite (map_ext _ _ (rep_set_exp_2 x y)). destruct (rc_con a); simpl; auto. destruct (rc_con b); auto.
Qed.
Lemma filter_filter {X} (f : X -> bool) l : filter f (filter f l) = filter f l.
Proof.
  induction l as [|x l IH]; simpl; auto. destruct (f x) eqn:H; simpl; rewrite ?H, IH; auto.
Qed.
Lemma nf_assoc {A} (a b c : recr T A) : join_nf (join_nf a b) c = join_nf a (join_nf b c).
Proof.
  unfold join_nf; simpl. rewrite filter_app, filter_filter, omin_assoc, app_assoc.
  destruct (rc_con a), (rc_con b), (rc_con c); simpl; auto. unfold Append. rewrite app_assoc. reflexivity.
Qed.

Section Cases.
Context {A : Type}.
Variables (s : list T) (pos : nat) (c : ctx T) (ins : Z).
Definition fail_of (x : res T A) : option (loc * list string) :=
  match x with
  | ROk _ => None
  | RErr e => if er_con e then None else Some (er_loc e, er_exp e)
  | RRec rc => if rc_con rc then None else Some (rc_loc rc, rc_exp rc)
  end.
(** the first alternative failed without consuming *)
Lemma alt_full_fail (p q : pfull T A) rem x la xa :
  p s pos c ins None = Ret x -> fail_of x = Some (la, xa) ->
  alt_full p q s pos c ins rem =
  (rb <- q s pos c ins None ;;
   if res_con rb then Ret rb
   else match rb with
        | ROk ob => Ret (ROk (ok_set_exp (Append xa (ok_exp ob)) ob))
        | _ => alt_recover p q la (Append xa (res_exp rb)) s pos c ins rem
        end).
Proof.
  intros H Hx. unfold alt_full. rewrite H. simpl. destruct x as [o|[l e b]|[reps mn l e b]]; simpl in *;
    try discriminate; destruct b; try discriminate; injection Hx as <- <-;
    apply obind_ext; intros rb; destruct (res_con rb); auto.
  - destruct rb; reflexivity.
  - destruct rb; reflexivity.
Qed.
Lemma alt_full_take (p q : pfull T A) rem x :
  p s pos c ins None = Ret x -> fail_of x = None -> alt_full p q s pos c ins rem = Ret x.
Proof.
  intros H Hx. unfold alt_full. rewrite H. simpl. destruct x as [o|[l e b]|[reps mn l e b]]; simpl in *;
    auto; destruct b; auto; discriminate.
Qed.

End Cases.

Section Assoc.
Context {A : Type}.
Variables p q r : pfull T A.
Variables (s : list T) (pos : nat) (c : ctx T) (ins : Z) (rem : option Z).
Hypothesis Hp : forall x, p s pos c ins rem = Ret x -> res_prios x.
Hypothesis Hq : forall x, q s pos c ins rem = Ret x -> res_prios x.
Hypothesis Hr : forall x, r s pos c ins rem = Ret x -> res_prios x.

Theorem alt_full_assoc :
  alt_full (alt_full p q) r s pos c ins rem = alt_full p (alt_full q r) s pos c ins rem.
Proof.
  destruct (p s pos c ins None) as [xp|e|] eqn:Ep.
  2:{ unfold alt_full at 1 3. unfold alt_full at 1. rewrite Ep. reflexivity. }
  2:{ unfold alt_full at 1 3. unfold alt_full at 1. rewrite Ep. reflexivity. }
  destruct (fail_of xp) as [[la xa]|] eqn:Fp.
  2:{ rewrite (alt_full_take _ _ _ _ p _ _ _ Ep Fp).
      apply (alt_full_take _ _ _ _ (alt_full p q) r); auto. apply alt_full_take; auto. }
  pose proof (alt_full_fail _ _ _ _ p q None _ _ _ Ep Fp) as Hpq.
  rewrite (alt_full_fail _ _ _ _ p (alt_full q r) rem _ _ _ Ep Fp).
  destruct (q s pos c ins None) as [xq|e|] eqn:Eq.
  2:{ unfold alt_full at 1. rewrite Hpq. simpl. unfold alt_full. rewrite Eq. reflexivity. }
  2:{ unfold alt_full at 1. rewrite Hpq. simpl. unfold alt_full. rewrite Eq. reflexivity. }
  cbn [obind] in Hpq.
  destruct (fail_of xq) as [[lb xb]|] eqn:Fq.
  2:{ rewrite (alt_full_take _ _ _ _ q r None _ Eq Fq). cbn [obind].
      destruct (res_con xq) eqn:Cq.
      - apply (alt_full_take _ _ _ _ _ _ _ _ Hpq Fq).
      - destruct xq as [ob|e|rc]; simpl in Fq, Cq; rewrite ?Cq in Fq; try discriminate.
        apply (alt_full_take _ _ _ _ _ _ _ _ Hpq). reflexivity. }
  assert (Cq : res_con xq = false).
  { destruct xq as [o|e|rc]; simpl in *; try discriminate;
      [destruct (er_con e)|destruct (rc_con rc)]; auto; discriminate. }
  assert (Xq : res_exp xq = xb).
  { destruct xq as [o|e|rc]; simpl in *; try discriminate;
      [destruct (er_con e)|destruct (rc_con rc)]; congruence. }
  assert (Nq : forall o, xq <> ROk o) by (intros o ->; discriminate).
  assert (Hpq' : forall rem, alt_full p q s pos c ins rem =
                 alt_recover p q la (Append xa xb) s pos c ins rem).
  { intros rem'. rewrite (alt_full_fail _ _ _ _ p q rem' _ _ _ Ep Fp), Eq. cbn [obind]. rewrite Cq, Xq.
    destruct xq; auto. destruct (Nq o); reflexivity. }
  assert (Hn : alt_full p q s pos c ins None = Ret (RErr (Err la (Append xa xb) false))).
  { rewrite Hpq'. reflexivity. }
  rewrite (alt_full_fail _ _ _ _ (alt_full p q) r rem _ la (Append xa xb) Hn eq_refl).
  rewrite (alt_full_fail _ _ _ _ q r None _ _ _ Eq Fq).
  destruct (r s pos c ins None) as [xr|e|] eqn:Er; cbn [obind]; auto.
  destruct (res_con xr) eqn:Cr.
  { cbn [obind]. rewrite Cr. reflexivity. }
  destruct xr as [oc|er|rr]; simpl in Cr; cbn [obind].
  { destruct oc as [v1 p1 c1 e1 b1]; simpl in *; subst b1. unfold ok_set_exp, Append; simpl.
    rewrite app_assoc. reflexivity. }
  all: unfold alt_recover at 2; cbn [obind res_con er_con res_exp er_exp].
  all: unfold alt_recover at 1 2; destruct rem as [m|]; [|unfold Append; rewrite app_assoc; reflexivity].
  all: assert (Hqr : alt_full q r s pos c ins (Some m) =
         alt_recover q r lb (Append xb (match r s pos c ins None with Ret x => res_exp x | _ => [] end)) s pos c ins (Some m))
       by (rewrite (alt_full_fail _ _ _ _ q r (Some m) _ _ _ Eq Fq), Er; cbn [obind res_con]; rewrite Cr; reflexivity).
  all: rewrite Hqr, Er, Hpq'; unfold alt_recover; cbn [res_exp].
  all: destruct (p s pos c ins (Some m)) as [yp|e|] eqn:Yp; cbn [obind]; auto.
  all: destruct (q s pos c ins (Some m)) as [yq|e|] eqn:Yq; cbn [obind]; try (destruct yp; reflexivity).
  all: destruct (r s pos c ins (Some m)) as [yr|e|] eqn:Yr; cbn [obind]; try (destruct yp, yq; reflexivity).
  all: pose proof (Hp _ eq_refl) as Pp; pose proof (Hq _ eq_refl) as Pq; pose proof (Hr _ eq_refl) as Pr.
  all: destruct yp as [op|ep|ap], yq as [oq|eq0|aq], yr as [or0|er0|ar]; cbn [obind]; simpl in Pp, Pq, Pr;
    rewrite ?rec_set_exp_2; unfold Append; rewrite ?app_assoc; try reflexivity.
  all: repeat first
    [ rewrite (join_is_nf (rec_set_exp _ _) _) by (auto using prios_set_exp, prios_join)
    | rewrite (join_is_nf _ (rec_set_exp _ _)) by (auto using prios_set_exp, prios_join)
    | rewrite join_is_nf by (auto using prios_set_exp, prios_join) ];
    rewrite ?nf_set_l, ?nf_set_r, ?nf_assoc; try reflexivity.
Qed.
End Assoc.

Lemma alt_fast_assoc {A} (p q r : pfast T A) s pos c :
  alt_fast (alt_fast p q) r s pos c = alt_fast p (alt_fast q r) s pos c.
Proof.
  unfold alt_fast. destruct (p s pos c) as [[o|[l e []]]|e|]; simpl; auto.
  destruct (q s pos c) as [[oq|[lq eq []]]|eq|]; simpl; auto.
  - destruct (ok_con oq) eqn:Hq; simpl; rewrite ?Hq; simpl; auto.
  - destruct (r s pos c) as [[[v q' c' er []]|[lr er []]]|er|]; simpl; auto; unfold ok_set_exp, Append; simpl;
      rewrite app_assoc; reflexivity.
Qed.
End AltLaws.
