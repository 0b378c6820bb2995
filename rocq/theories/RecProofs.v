(** The recovering interpreter computes exactly the declarative semantics
    [rsem] of RecSpec.v. *)
From Verif Require Export RecSpec DiagProofs.

Definition off {T A} (r : repair T A) : offer A :=
  Offer (r_cost r) (r_prio r) (r_ins r) (r_ops r) (r_val r) (r_pos r) (r_exp r) (r_con r).
Definition rab {T A} (r : res T A) : rres A :=
  match r with
  | ROk o => RSucc (ok_val o) (ok_pos o) (ok_exp o)
  | RErr e => RFail (er_con e) (er_loc e) (er_exp e)
  | RRec c => ROffer (rc_min c) (rc_con c) (rc_loc c) (rc_exp c) (map off (rc_reps c))
  end.
Definition rabs {T A} (x : out (res T A)) : option (rres A) :=
  match x with Ret r => Some (rab r) | Raise e => Some (RExn e) | NoFuel => None end.
Definition cabs {T A} (x : out (list (repair T A))) : option (list (offer A) + exn) :=
  match x with Ret l => Some (inl (map off l)) | Raise e => Some (inr e) | NoFuel => None end.
Definition rokcon {T A} (j : nat) (r : res T A) : Prop :=
  match r with ROk o => ok_con o = Nat.ltb j (ok_pos o) | _ => True end.

(** ** Abstraction of the elementary operations *)
Section Abs.
Context {T : Type}.

Lemma rabs_lef {A} (x y : out (res T A)) o : lef x y -> rabs x = Some o -> rabs y = Some o.
Proof. intros [->| ->]; [discriminate|auto]. Qed.
Lemma cabs_lef {A} (x y : out (list (repair T A))) o : lef x y -> cabs x = Some o -> cabs y = Some o.
Proof. intros [->| ->]; [discriminate|auto]. Qed.

Lemma rabs_succ {A} (x : out (res T A)) v j X : rabs x = Some (RSucc v j X) ->
  exists o, x = Ret (ROk o) /\ ok_val o = v /\ ok_pos o = j /\ ok_exp o = X.
Proof. destruct x as [[o|e|c]|e|]; simpl; intros H; try discriminate. injection H as <- <- <-. eauto 6. Qed.
Lemma rabs_fail {A} (x : out (res T A)) b l X : rabs x = Some (RFail b l X) ->
  x = Ret (RErr (Err l X b)).
Proof. destruct x as [[o|e|c]|e|]; simpl; intros H; try discriminate. destruct e; cbn in H. congruence. Qed.
Lemma rabs_offer {A} (x : out (res T A)) n b l X rs : rabs x = Some (ROffer n b l X rs) ->
  exists reps, x = Ret (RRec (Recd reps n l X b)) /\ rs = map off reps.
Proof.
  destruct x as [[o|e|c]|e|]; simpl; intros H; try discriminate. destruct c; cbn in H.
  injection H as <- <- <- <- <-. eauto.
Qed.
Lemma rabs_exn {A} (x : out (res T A)) e : rabs x = Some (RExn e) -> x = Raise e.
Proof. destruct x as [[?|?|?]|?|]; simpl; intros H; try discriminate. congruence. Qed.

Lemma ops_after X b ops : ops_prepend_expected ops X b = map (op_after b X) ops.
Proof.
  apply map_ext. intros o. unfold op_after, Append. destruct (op_con o) eqn:H; cbn; reflexivity.
Qed.
Lemma ops_rename X ops : ops_set_expected ops X = map (op_rename X) ops.
Proof. apply map_ext. intros o. unfold op_rename. destruct (op_con o); reflexivity. Qed.
Lemma off_prepend {A} X b (r : repair T A) : off (rep_prepend X b r) = f_after b X (off r).
Proof.
  unfold off, f_after; cbn. rewrite ops_after. destruct (r_con r); reflexivity.
Qed.
Lemma off_rename {A} X (r : repair T A) : off (rep_set_exp X r) = f_rename X (off r).
Proof. unfold off, f_rename; cbn. rewrite ops_rename. reflexivity. Qed.

Lemma rab_prepend {A} i j X b (r : res T A) : b = Nat.ltb i j -> rokcon j r ->
  rab (res_prepend X b r) = r_after i j X (rab r).
Proof.
  intros -> H. destruct r as [o|e|c]; cbn in *.
  - unfold ok_prepend. rewrite <- H. destruct (ok_con o); reflexivity.
  - unfold er_prepend. destruct (er_con e) eqn:K; cbn; rewrite ?K; reflexivity.
  - rewrite !map_map. rewrite (map_ext _ _ (off_prepend X (Nat.ltb i j))).
    destruct (rc_con c); cbn; reflexivity.
Qed.
Lemma rab_label {A} i x (r : res T A) : rokcon i r ->
  rab (res_set_exp [x] r) = r_label i x (rab r).
Proof.
  intros H. destruct r as [o|e|c]; cbn in *.
  - unfold ok_set_exp. rewrite <- H. destruct (ok_con o); reflexivity.
  - unfold er_set_exp. destruct (er_con e) eqn:K; cbn; rewrite ?K; reflexivity.
  - rewrite !map_map. rewrite (map_ext _ _ (off_rename [x])). reflexivity.
Qed.
Lemma rab_set_ctx {A} c (r : res T A) : rab (res_set_ctx c r) = rab r.
Proof. destruct r as [o|e|rc]; cbn; try reflexivity. rewrite map_map. reflexivity. Qed.
Lemma rab_relabelled {A} X (c : recr T A) :
  rab (RRec (rec_set_exp X c)) = relabelled X (rab (RRec c)).
Proof. cbn. rewrite !map_map. rewrite (map_ext _ _ (off_rename X)). reflexivity. Qed.
Lemma rab_ranked {A} (c : recr T A) :
  rab (RRec (Recd (map rep_set_prio (rc_reps c)) (rc_min c) (rc_loc c) (rc_exp c) (rc_con c))) =
  r_ranked (rab (RRec c)).
Proof. cbn. rewrite !map_map. reflexivity. Qed.

Lemma off_fmap {A B} (f : A -> out B) reps :
  match mapM (rep_fmap (T:=T) f) reps with Ret l => Ret (map off l) | Raise e => Raise e | NoFuel => NoFuel end
  = f_map f (map off reps).
Proof.
  induction reps as [|r reps IH]; cbn; [reflexivity|].
  unfold rep_fmap at 1. destruct (f (r_val r)); cbn; try reflexivity.
  rewrite <- IH. destruct (mapM (rep_fmap f) reps); reflexivity.
Qed.
Lemma rab_fmap_pure {A B} (h : A -> B) (r : res T A) :
  exists r', res_fmap (fun v => Ret (h v)) r = Ret r' /\ rab r' = on_rvalue h (rab r).
Proof.
  destruct r as [o|e|c]; cbn; try (eexists; split; reflexivity).
  assert (K : mapM (rep_fmap (T:=T) (fun v => Ret (h v))) (rc_reps c) =
    Ret (map (fun r => Repair (r_cost r) (r_prio r) (r_ins r) (r_ops r) (h (r_val r)) (r_pos r)
       (r_ctx r) (r_exp r) (r_con r)) (rc_reps c))).
  { induction (rc_reps c) as [|r l IH]; cbn; [reflexivity|]. rewrite IH. reflexivity. }
  unfold rec_fmap. rewrite K. cbn. eexists. split; [reflexivity|]. cbn. rewrite !map_map. reflexivity.
Qed.

Lemma join_after {A B} (r : repair T A) (r' : repair T B) :
  join_ops r r' = r_ops r ++ map (op_after (r_con r) (r_exp r)) (r_ops r').
Proof.
  unfold join_ops. rewrite ops_after. f_equal.
  rewrite <- (map_id (r_ops r)) at 2. apply map_ext. intros []; reflexivity.
Qed.
Lemma off_cont_ok {A B C} ins (merge : A -> B -> C) (r : repair T A) (o : okr T B) :
  ok_con o = Nat.ltb (r_pos r) (ok_pos o) ->
  off (cont_ok ins merge r o) = f_then_succ ins merge (off r) (ok_val o) (ok_pos o) (ok_exp o).
Proof.
  intros H. unfold off, cont_ok, f_then_succ; cbn. unfold append_expected. rewrite H. reflexivity.
Qed.
Lemma off_cont_rec {A B C} (merge : A -> B -> C) (r : repair T A) (r' : repair T B) :
  off (cont_rec merge r r') = f_then_repair merge (off r) (off r').
Proof. unfold off, cont_rec, f_then_repair; cbn. rewrite join_after. reflexivity. Qed.

Lemma filter_off {A} (f : offer A -> bool) (l : list (repair T A)) :
  filter f (map off l) = map off (filter (fun r => f (off r)) l).
Proof. induction l as [|r l IH]; cbn; [reflexivity|]. rewrite IH. destruct (f (off r)); reflexivity. Qed.
Lemma rab_join {A} l X (a b : recr T A) :
  rab (RRec (rec_set_exp X (join_repairs a b))) = r_choice l X (rab (RRec a)) (rab (RRec b)).
Proof.
  rewrite rab_relabelled. unfold r_choice. cbn [rab]. f_equal.
  rewrite filter_off. unfold join_repairs, eligible, min_near, Append.
  destruct (rc_min a) as [x|], (rc_min b) as [y|]; cbn -[Nat.ltb Nat.min];
    try (destruct (Nat.ltb_spec y x) as [L|L];
         [rewrite (Nat.min_r x y) by lia|rewrite (Nat.min_l x y) by lia]);
    destruct (rc_con a), (rc_con b); cbn -[Nat.ltb Nat.min]; rewrite ?map_app; reflexivity.
Qed.

Lemma rabs_continue {A B C} (rc : recr T A) ins F (merge : A -> B -> C) :
  rabs (continue_parse rc ins F merge) =
  match cabs (flat_mapM (cont_one ins F merge) (rc_reps rc)) with
  | Some (inl rs) => Some (ROffer (rc_min rc) (rc_con rc) (rc_loc rc) (rc_exp rc) rs)
  | Some (inr e) => Some (RExn e)
  | None => None
  end.
Proof. unfold continue_parse. destruct (flat_mapM _ _); reflexivity. Qed.

(** ** Searching *)
Lemma skip_loop_hit {X} (probe : nat -> out (option X)) k cur (j : nat) r :
  cur <= j < cur + k -> (forall q, cur <= q < j -> probe q = Ret None) ->
  probe j = r -> r <> Ret None ->
  skip_loop probe k cur = match r with Ret (Some x) => Ret (Some (j, x)) | Raise e => Raise e | _ => NoFuel end.
Proof.
  revert cur. induction k as [|k IH]; intros cur Hj Hm Hr Hn; [lia|]. cbn.
  destruct (Nat.eq_dec cur j) as [->|Hne].
  - rewrite Hr. destruct r as [[x|]|e|]; cbn; try reflexivity. congruence.
  - rewrite Hm by lia. cbn. apply IH; auto; try lia. intros q Hq. apply Hm. lia.
Qed.
Lemma skip_loop_miss {X} (probe : nat -> out (option X)) k cur :
  (forall q, cur <= q < cur + k -> probe q = Ret None) -> skip_loop probe k cur = Ret None.
Proof.
  revert cur. induction k as [|k IH]; intros cur Hm; cbn; [reflexivity|].
  rewrite Hm by lia. cbn. apply IH. intros q Hq. apply Hm. lia.
Qed.
Lemma skip_loop_exn {X} (probe : nat -> out (option X)) k cur e :
  skip_loop probe k cur = Raise e ->
  exists j, cur <= j < cur + k /\ probe j = Raise e /\ forall q, cur <= q < j -> probe q = Ret None.
Proof.
  revert cur. induction k as [|k IH]; intros cur H; cbn in H; [discriminate|].
  destruct (probe cur) as [[x|]|e'|] eqn:Hp; cbn in H; try discriminate.
  - apply IH in H as (j & H1 & H2 & H3). exists j. split; [lia|split; auto].
    intros q Hq. destruct (Nat.eq_dec q cur) as [->|]; auto. apply H3. lia.
  - exists cur. split; [lia|]. split; [congruence|]. intros; lia.
Qed.
Lemma search_hit {X} (s : list T) (probe : nat -> out (option X)) (hit : nat -> X -> Prop) miss i j x :
  next_hit s hit miss i j x -> (forall q y, hit q y -> probe q = Ret (Some y)) ->
  (forall q, miss q -> probe q = Ret None) -> skip_search s i probe = Ret (Some (j, x)).
Proof.
  intros (H1 & H2 & H3) Hh Hm. unfold skip_search.
  rewrite (skip_loop_hit probe _ _ j (Ret (Some x))); auto; try lia; try discriminate.
Qed.
Lemma search_raise {X} (s : list T) (probe : nat -> out (option X)) e (hit : nat -> unit -> Prop) miss i j :
  next_hit s hit miss i j tt -> (forall q, hit q tt -> probe q = Raise e) ->
  (forall q, miss q -> probe q = Ret None) -> skip_search s i probe = Raise e.
Proof.
  intros (H1 & H2 & H3) Hh Hm. unfold skip_search.
  rewrite (skip_loop_hit probe _ _ j (Raise e)); auto; try lia; try discriminate.
Qed.
Lemma search_none {X} (s : list T) (probe : nat -> out (option X)) miss i :
  no_hit s miss i -> (forall q, miss q -> probe q = Ret None) -> skip_search s i probe = Ret None.
Proof.
  intros H Hm. apply skip_loop_miss. intros q Hq. apply Hm, H. lia.
Qed.
Lemma search_inv {X} (s : list T) (probe : nat -> out (option X)) (hit : nat -> X -> Prop) (miss : nat -> Prop) i :
  (forall q y, probe q = Ret (Some y) -> hit q y) -> (forall q, probe q = Ret None -> miss q) ->
  match skip_search s i probe with
  | Ret (Some (j, x)) => next_hit s hit miss i j x
  | Ret None => no_hit s miss i
  | Raise e => exists j, next_hit s (fun j (_ : unit) => probe j = Raise e) miss i j tt
  | NoFuel => True
  end.
Proof.
  intros Hh Hm. destruct (skip_search s i probe) as [[[j x]|]|e|] eqn:H; auto.
  - apply skip_search_found in H as (H1 & H2 & H3). split; [exact H1|]. auto.
  - intros q Hq. apply Hm. eapply skip_search_none; eauto.
  - apply skip_loop_exn in H as (j & H1 & H2 & H3). exists j. split; [lia|]. split; auto.
Qed.

Lemma probe_tok_iff (test : T -> out bool) s q :
  match probe_tok test s q with
  | Ret (Some t) => sat_hit test s q t
  | Ret None => sat_miss test s q
  | Raise e => sat_raise test e s q
  | NoFuel => True
  end.
Proof.
  unfold probe_tok, sat_hit, sat_miss, sat_raise. destruct (nth_error s q) as [t|] eqn:H.
  - destruct (test t) as [[]|e|] eqn:Ht; cbn; eauto. intros ? K. congruence.
  - intros ? K. congruence.
Qed.
Lemma sat_hit_probe (test : T -> out bool) s q t : sat_hit test s q t -> probe_tok test s q = Ret (Some t).
Proof. intros [H1 H2]. unfold probe_tok. rewrite H1, H2. reflexivity. Qed.
Lemma sat_miss_probe (test : T -> out bool) s q : sat_miss test s q -> probe_tok test s q = Ret None.
Proof.
  intros H. unfold probe_tok, sat_miss in *. destruct (nth_error s q); auto. rewrite (H _ eq_refl). reflexivity.
Qed.
Lemma sat_raise_probe (test : T -> out bool) e s q : sat_raise test e s q -> probe_tok test s q = Raise e.
Proof. intros (t & H1 & H2). unfold probe_tok. rewrite H1, H2. reflexivity. Qed.
Lemma probe_sym_iff (teq : T -> T -> bool) x s q :
  match probe_sym teq x s q with
  | Ret (Some t) => sym_hit teq x s q t
  | Ret None => sym_miss teq x s q
  | _ => False
  end.
Proof.
  unfold probe_sym, sym_hit, sym_miss. destruct (nth_error s q) as [t|] eqn:H.
  - destruct (teq t x) eqn:Ht; cbn; eauto. intros ? K. congruence.
  - intros ? K. congruence.
Qed.
Lemma sym_hit_probe (teq : T -> T -> bool) x s q t : sym_hit teq x s q t -> probe_sym teq x s q = Ret (Some t).
Proof. intros [H1 H2]. unfold probe_sym. rewrite H1, H2. reflexivity. Qed.
Lemma sym_miss_probe (teq : T -> T -> bool) x s q : sym_miss teq x s q -> probe_sym teq x s q = Ret None.
Proof.
  intros H. unfold probe_sym, sym_miss in *. destruct (nth_error s q); auto. rewrite (H _ eq_refl). reflexivity.
Qed.
Lemma lit_hit_probe (teq : T -> T -> bool) x s q : lit_hit teq x s q tt -> probe_lit teq x s q = Ret (Some tt).
Proof. unfold lit_hit, probe_lit. intros H. change (starts_with teq x s q) with (stands_at teq x s q). rewrite H. reflexivity. Qed.
Lemma lit_miss_probe (teq : T -> T -> bool) x s q : lit_miss teq x s q -> probe_lit teq x s q = Ret None.
Proof. unfold lit_miss, probe_lit. intros H. change (starts_with teq x s q) with (stands_at teq x s q). rewrite H. reflexivity. Qed.
Lemma re_hit_probe {A} (re : list T -> nat -> option (nat * option A)) s q ev :
  re_hit re s q ev -> probe_re re s q = Some ev.
Proof. unfold re_hit, probe_re. intros ->. destruct ev; reflexivity. Qed.
Lemma re_miss_probe {A} (re : list T -> nat -> option (nat * option A)) s q :
  re_miss re s q -> probe_re re s q = None.
Proof.
  unfold re_miss, re_matches, probe_re. intros H. destruct (re s q) as [[e [v|]]|]; auto.
  exfalso. eauto.
Qed.
Lemma probe_re_iff {A} (re : list T -> nat -> option (nat * option A)) s q :
  match probe_re re s q with Some ev => re_hit re s q ev | None => re_miss re s q end.
Proof.
  unfold re_miss, re_hit, re_matches, probe_re. destruct (re s q) as [[e [v|]]|]; auto;
    intros (e' & v' & H); discriminate.
Qed.

(** ** The loop of many *)
Definition res_addv {A} (con : bool) (v : list A) (r : res T (list A)) : res T (list A) :=
  match r with
  | ROk o => ROk (Ok (v ++ ok_val o) (ok_pos o) (ok_ctx o) (ok_exp o) (con || ok_con o))
  | RErr e => RErr e
  | RRec c => RRec (Recd (map (fun r => Repair (r_cost r) (r_prio r) (r_ins r) (r_ops r)
      (v ++ r_val r) (r_pos r) (r_ctx r) (r_exp r) (r_con r)) (rc_reps c))
      (rc_min c) (rc_loc c) (rc_exp c) (rc_con c))
  end.
Lemma continue_addv {A B C} (rc : recr T A) ins (F : A -> nat -> ctx T -> Z -> out (res T B))
    (merge merge' : A -> B -> list C) con v :
  (forall a b, merge' a b = v ++ merge a b) ->
  continue_parse rc ins F merge' = omap (res_addv con v) (continue_parse rc ins F merge).
Proof.
  intros Hm. unfold continue_parse.
  assert (K : flat_mapM (cont_one ins F merge') (rc_reps rc) =
    omap (map (fun r => Repair (r_cost r) (r_prio r) (r_ins r) (r_ops r)
      (v ++ r_val r) (r_pos r) (r_ctx r) (r_exp r) (r_con r))) (flat_mapM (cont_one ins F merge) (rc_reps rc))).
  { induction (rc_reps rc) as [|r l IH]; cbn; [reflexivity|].
    rewrite IH. clear IH. unfold cont_one.
    destruct (F (r_val r) (r_pos r) (r_ctx r) (r_ins r)) as [[o|e|c]|e|]; cbn; try reflexivity.
    - destruct (flat_mapM _ l); cbn; try reflexivity. unfold cont_ok; cbn. rewrite Hm. reflexivity.
    - destruct (flat_mapM _ l); cbn; reflexivity.
    - destruct (flat_mapM _ l); cbn; try reflexivity. rewrite map_app, map_map. do 2 f_equal.
      apply map_ext. intros r'. unfold cont_rec; cbn. rewrite Hm. reflexivity. }
  rewrite K. clear K. destruct (flat_mapM _ _); reflexivity.
Qed.
Lemma many_full_acc {A} (p : pfull T A) s ins n : forall con v pos c,
  many_full p n con v s pos c ins = omap (res_addv con v) (many_full p n false [] s pos c ins).
Proof.
  induction n as [|n IH]; intros con v pos c; cbn [many_full]; [reflexivity|].
  destruct (p s pos c ins None) as [[o|e|rc]|e|]; cbn [obind omap]; try reflexivity.
  - destruct (ok_con o); [|reflexivity].
    rewrite (IH true (v ++ _)), (IH true ([] ++ _)).
    destruct (many_full p n false [] s (ok_pos o) (ok_ctx o) ins) as [[o'|e|c']|e|]; cbn; try reflexivity.
    + rewrite <- app_assoc. cbn. rewrite orb_true_r. reflexivity.
    + rewrite map_map. cbn. do 3 f_equal. apply map_ext. intros r. rewrite <- app_assoc. reflexivity.
  - destruct (er_con e); cbn; [reflexivity|]. rewrite app_nil_r, orb_false_r. reflexivity.
  - apply continue_addv. intros a b. reflexivity.
Qed.
Lemma rab_addv {A} (v : A) (r : res T (list A)) : rab (res_addv true [v] r) = on_rvalue (cons v) (rab r).
Proof. destruct r as [o|e|c]; cbn; try reflexivity. rewrite !map_map. reflexivity. Qed.

End Abs.

Section RecProofs.
Context {T : Type} {V : nat -> Type}.
Variable E : env T V.
Variable s : list T.
Variable get : loc -> list T -> nat -> loc.
Variable locof : nat -> loc.
Variable lay : Prop.
Hypothesis Hco : cohere get s locof.
Hypothesis Hlay : lay -> exactpos s locof.
Hypothesis HE : forall d, gok lay (E d).
Let CS := pos_system s get locof lay Hco Hlay.
Let Cok := pos_Cok (T:=T) get locof.
Let len := List.length s.
Notation rsem := (rsem E s locof).
Notation rconts := (rconts E s locof).
Notation diag := (diag E s locof).

Definition goodrep (m : Z) {A} (r : repair T A) : Prop :=
  r_pos r <= len /\ Cok (r_pos r) (r_ctx r) /\ ctx_mark (r_ctx r) = m.

Lemma fgood n A (g : gram T V A) pos c ins rem r :
  gok lay g -> pos <= len -> Cok pos c -> full E n g s pos c ins rem = Ret r ->
  match r with
  | ROk o => pos <= ok_pos o <= len /\ ok_con o = Nat.ltb pos (ok_pos o) /\
      Cok (ok_pos o) (ok_ctx o) /\ ctx_mark (ok_ctx o) = ctx_mark c
  | RErr _ => True
  | RRec rc => Forall (goodrep (ctx_mark c)) (rc_reps rc)
  end.
Proof.
  intros Hg Hp Hc H. apply (full_good E s _ _ _ _ CS HE) in H; auto.
  destruct r as [o|e|rc]; cbn in H; auto.
  - apply H.
  - destruct H as [_ H]. apply Forall_forall. intros r Hr.
    destruct (H r Hr) as [(sk & _ & _ & _ & _ & K1 & K2 & K3) _]. split; [apply K1|]. auto.
Qed.
Lemma full_rokcon n A (g : gram T V A) pos c ins rem r :
  gok lay g -> pos <= len -> Cok pos c -> full E n g s pos c ins rem = Ret r -> rokcon pos r.
Proof. intros Hg Hp Hc H. apply fgood in H; auto. destruct r; cbn; auto. apply H. Qed.
Lemma RLoc pos c : Cok pos c -> pos <= len -> get_loc c s pos = locof pos.
Proof. apply (Cloc s get locof lay Hco Hlay). Qed.

(** a run that may not recover and did not consume has no repairs *)
Lemma none_open n A (g : gram T V A) pos c ins rc :
  full E n g s pos c ins None = Ret (RRec rc) -> rc_con rc = true.
Proof.
  intros H. destruct (rc_con rc) eqn:K; auto. exfalso.
  apply full_none_unconsumed in H as (e & H & _); cbn; auto. discriminate.
Qed.

Lemma conts_sound A B C (k : A -> gram T V B) (merge : A -> B -> C) m ins
    (F : A -> nat -> ctx T -> Z -> out (res T B)) :
  (forall v pos c left o, pos <= len -> Cok pos c -> ctx_mark c = m ->
     rabs (F v pos c left) = Some o -> rsem B (k v) m pos ins (Some left) o) ->
  (forall v pos c left o, pos <= len -> Cok pos c -> F v pos c left = Ret (ROk o) ->
     ok_con o = Nat.ltb pos (ok_pos o)) ->
  forall reps x, Forall (goodrep m) reps ->
  cabs (flat_mapM (cont_one ins F merge) reps) = Some x ->
  rconts A B C k merge m ins (map off reps) x.
Proof.
  intros HF HO reps. induction reps as [|r reps IH]; intros x HG H; cbn in H.
  { injection H as <-. apply rc_nil. }
  inversion HG as [|? ? (G1 & G2 & G3) HG']; subst. specialize (IH) with (1 := HG').
  unfold cont_one in H at 1.
  pose proof (fun o => HF (r_val r) (r_pos r) (r_ctx r) (r_ins r) o G1 G2 eq_refl) as K.
  pose proof (fun o => HO (r_val r) (r_pos r) (r_ctx r) (r_ins r) o G1 G2) as K2.
  destruct (F (r_val r) (r_pos r) (r_ctx r) (r_ins r)) as [[o|e|rc]|e|]; cbn [obind] in H; try discriminate.
  - specialize (K _ eq_refl). specialize (K2 _ eq_refl).
    destruct (flat_mapM _ reps) as [l|e|]; cbn in H; try discriminate; injection H as <-.
    + rewrite off_cont_ok by auto. cbn. apply rc_succ; auto.
    + cbn. eapply rc_exn_later; [exact K|discriminate|auto].
  - specialize (K _ eq_refl).
    destruct (flat_mapM _ reps) as [l|e'|]; cbn in H; try discriminate; injection H as <-.
    + cbn. eapply rc_fail; [exact K|auto].
    + cbn. eapply rc_exn_later; [exact K|discriminate|auto].
  - specialize (K _ eq_refl).
    destruct (flat_mapM _ reps) as [l|e'|]; cbn in H; try discriminate; injection H as <-.
    + rewrite map_app, map_map, (map_ext _ _ (off_cont_rec merge r)), <- (map_map off).
      cbn. eapply rc_offer; [exact K|auto].
    + cbn. eapply rc_exn_later; [exact K|discriminate|auto].
  - injection H as <-. cbn. apply rc_exn. apply (K _ eq_refl).
Qed.

Lemma many_rsound A (p : gram T V A) (F : pfull T A) : gok lay p ->
  (forall pos c ins o, pos <= len -> Cok pos c -> rabs (F s pos c ins None) = Some o ->
     rsem A p (ctx_mark c) pos ins None o) ->
  (forall pos c ins r, pos <= len -> Cok pos c -> F s pos c ins None = Ret r ->
  match r with
  | ROk o => pos <= ok_pos o <= len /\ ok_con o = Nat.ltb pos (ok_pos o) /\
      Cok (ok_pos o) (ok_ctx o) /\ ctx_mark (ok_ctx o) = ctx_mark c
  | RErr _ => True
  | RRec rc => Forall (goodrep (ctx_mark c)) (rc_reps rc)
  end) ->
  forall n pos c ins rem o, pos <= len -> Cok pos c ->
  (rabs (many_full F n false [] s pos c ins) = Some o ->
   rsem _ (GMany p) (ctx_mark c) pos ins rem o) /\
  (forall o, many_full F n false [] s pos c ins = Ret (ROk o) ->
     pos <= ok_pos o /\ ok_con o = Nat.ltb pos (ok_pos o)).
Proof.
  intros Hp HF HG n. induction n as [|n IH]; cbn [many_full]; intros pos c ins rem o Hpos Hc;
    [split; discriminate|].
  pose proof (HG pos c ins) as HG'. pose proof (fun o => HF pos c ins o Hpos Hc) as HF'.
  destruct (F s pos c ins None) as [[o1|e|rc]|e|] eqn:HFe; cbn [obind];
    [| | | |split; discriminate].
  - destruct (HG' _ Hpos Hc eq_refl) as (G1 & G2 & G3 & G4). clear HG'.
    specialize (HF' _ eq_refl). cbn in HF'.
    destruct (ok_con o1).
    + symmetry in G2. apply Nat.ltb_lt in G2. rewrite many_full_acc.
      change ([] ++ [ok_val o1]) with [ok_val o1].
      assert (I1 : forall rem o, rabs (many_full F n false [] s (ok_pos o1) (ok_ctx o1) ins) = Some o ->
        rsem (list A) (GMany p) (ctx_mark (ok_ctx o1)) (ok_pos o1) ins rem o)
        by (intros rem' o'; eapply (IH (ok_pos o1) (ok_ctx o1) ins rem' o'); auto; lia).
      pose proof (proj2 (IH (ok_pos o1) (ok_ctx o1) ins rem (RExn ManyEmpty) ltac:(lia) G3)) as I2.
      rewrite G4 in I1.
      destruct (many_full F n false [] s (ok_pos o1) (ok_ctx o1) ins) as [r|e|]; cbn [obind omap].
      * split.
        -- cbn [rabs]. rewrite rab_addv. intros K. injection K as <-.
           eapply rs_many_more; eauto.
        -- intros o2 K. destruct r as [o3|e3|rc3]; try discriminate. injection K as <-.
           destruct (I2 _ eq_refl) as [I3 I4]. cbn. split; [lia|]. symmetry. apply Nat.ltb_lt. lia.
      * split; [|discriminate]. cbn. intros K. injection K as <-.
        change (RExn e) with (on_rvalue (cons (ok_val o1)) (RExn e)). eapply rs_many_more; eauto.
      * split; discriminate.
    + split; [|discriminate]. intros K. cbn in K. injection K as <-.
      symmetry in G2. apply Nat.ltb_ge in G2.
      assert (Hq : ok_pos o1 = pos) by lia. rewrite Hq in HF'. eapply rs_many_empty; eauto.
  - specialize (HF' _ eq_refl). cbn in HF'. destruct (er_con e) eqn:He; cbn.
    + split; [|discriminate].
      intros K. injection K as <-. rewrite He. apply rs_many_fail; auto.
    + split.
      * intros K. injection K as <-. eapply rs_many_stop; eauto.
      * intros r K. injection K as <-. cbn. split; auto. symmetry. apply Nat.ltb_irrefl.
  - specialize (HF' _ eq_refl). cbn in HF'. specialize (HG' _ Hpos Hc eq_refl). cbn in HG'. split.
    + rewrite rabs_continue.
      destruct (cabs _) as [x|] eqn:Hx; [|discriminate].
      eapply conts_sound with (k := fun _ => GMany p) (m := ctx_mark c) in Hx; auto.
      * destruct x as [rs|e]; intros K; injection K as <-.
        -- eapply rs_many_offer; eauto.
        -- eapply rs_many_offer_exn; eauto.
      * cbn. intros v pos' c' left o' Hp' Hc' Hm' K. rewrite <- Hm'.
        eapply (IH pos' c' ins (Some left) o'); auto.
      * cbn. intros v pos' c' left o' Hp' Hc' K.
        apply (proj2 (IH pos' c' ins None (RExn ManyEmpty) Hp' Hc') _ K).
    + intros r K. apply continue_ret in K as (reps & _ & K). discriminate.
  - split; [|discriminate]. intros K. injection K as <-. apply rs_many_exn. auto.
Qed.

Lemma upd_mark'' c pos : ctx_mark (update_loc (T:=T) c s pos) = ctx_mark c.
Proof. unfold update_loc. destruct (Z.eqb _ _); reflexivity. Qed.

Lemma rabs_fmap_pure {A B} (h : A -> B) (x : out (res T A)) :
  rabs (r <- x ;; res_fmap (fun v => Ret (h v)) r) = option_map (on_rvalue h) (rabs x).
Proof.
  destruct x as [r|e|]; cbn [obind]; try reflexivity.
  destruct (rab_fmap_pure h r) as (r' & -> & H). cbn. rewrite H. reflexivity.
Qed.

Definition SE n : Prop := forall A (g : gram T V A) pos c ins rem o,
  gok lay g -> pos <= len -> Cok pos c ->
  rabs (full E n g s pos c ins rem) = Some o -> rsem A g (ctx_mark c) pos ins rem o.

Lemma settled_dec {A} (o : rres A) : settled o \/
  (exists l X, o = RFail false l X) \/ (exists n l X rs, o = ROffer n false l X rs).
Proof. destruct o as [|[]|? []|]; cbn; eauto 8. Qed.

Lemma alt_rsound n A (g1 g2 : gram T V A) pos c ins rem o : SE n ->
  gok lay g1 -> gok lay g2 -> pos <= len -> Cok pos c ->
  rabs (alt_full (full E n g1) (full E n g2) s pos c ins rem) = Some o ->
  rsem A (GAlt g1 g2) (ctx_mark c) pos ins rem o.
Proof.
  intros IH Hg1 Hg2 Hpos Hc H. unfold alt_full in H.
  pose proof (fun rem o => IH A g1 pos c ins rem o Hg1 Hpos Hc) as I1.
  pose proof (fun rem o => IH A g2 pos c ins rem o Hg2 Hpos Hc) as I2.
  pose proof (I1 None) as I1n. pose proof (I2 None) as I2n.
  pose proof (none_open n A g1 pos c ins) as N1. pose proof (none_open n A g2 pos c ins) as N2.
  pose proof (fun r => full_rokcon n A g2 pos c ins None r Hg2 Hpos Hc) as OC.
  destruct (full E n g1 s pos c ins None) as [[o1|[la xa ca]|[ra mn la xa ca]]|e|]; cbn [obind] in H; try discriminate.
  - apply rs_alt_l; [apply I1n; exact H|]. injection H as <-. exact I.
  - destruct ca.
    + apply rs_alt_l; [apply I1n; exact H|]. injection H as <-. reflexivity.
    + specialize (I1n _ eq_refl). cbn in I1n.
      destruct (full E n g2 s pos c ins None) as [[o2|[lb xb cb]|[rb mb lb xb cb]]|e|]; cbn [obind res_con] in H; try discriminate.
      * specialize (OC _ eq_refl). cbn in OC. specialize (I2n _ eq_refl). cbn in I2n.
        assert (K : o = r_else pos xa (RSucc (ok_val o2) (ok_pos o2) (ok_exp o2))).
        { cbn. rewrite <- OC. destruct (ok_con o2) eqn:K; cbn in H; unfold ok_set_exp in H; rewrite ?K in H;
            injection H as <-; reflexivity. }
        rewrite K. eapply rs_alt_r; eauto. exact I.
      * destruct cb.
        -- cbn in H. injection H as <-. specialize (I2n _ eq_refl). cbn in I2n.
           change (RFail true lb xb) with (r_else (A:=A) pos xa (RFail true lb xb)).
           eapply rs_alt_r; eauto. reflexivity.
        -- specialize (I2n _ eq_refl). cbn in I2n. cbn [res_exp er_exp] in H. unfold alt_recover, Append in H.
           destruct rem as [left|]; [|cbn in H; injection H as <-; eapply rs_alt_fail; eauto].
           specialize (I1 (Some left)). specialize (I2 (Some left)).
           destruct (full E n g1 s pos c ins (Some left)) as [r1|e|]; cbn [obind] in H; try discriminate.
           2:{ cbn in H. injection H as <-. eapply rs_alt_recover_exn; eauto. }
           specialize (I1 _ eq_refl). cbn in I1.
           destruct (full E n g2 s pos c ins (Some left)) as [r2|e|]; cbn [obind] in H; try discriminate.
           2:{ cbn in H. injection H as <-.
               replace (RExn e) with (r_choice la (xa ++ xb) (rab r1) (RExn e)) by (destruct r1; reflexivity).
               eapply rs_alt_recover; eauto. }
           specialize (I2 _ eq_refl). cbn in I2.
           assert (K : o = r_choice la (xa ++ xb) (rab r1) (rab r2)).
           { destruct r1 as [?|?|c1], r2 as [?|?|c2]; cbn [rabs er_con] in H;
               try (rewrite (rab_join la) in H; injection H as <-; reflexivity);
               try (rewrite rab_relabelled in H; injection H as <-; reflexivity);
               try (injection H as <-; reflexivity). }
           rewrite K. eapply rs_alt_recover; eauto.
      * specialize (N2 _ eq_refl). cbn in N2. subst cb. injection H as <-.
        specialize (I2n _ eq_refl). cbn in I2n.
        change (ROffer mb true lb xb (map off rb)) with (r_else pos xa (ROffer mb true lb xb (map off rb))).
        eapply rs_alt_r; eauto. reflexivity.
      * cbn in H. injection H as <-. specialize (I2n _ eq_refl).
        change (RExn e) with (r_else (A:=A) pos xa (RExn e)). eapply rs_alt_r; eauto. exact I.
  - specialize (N1 _ eq_refl). cbn in N1. subst ca. apply rs_alt_l; [apply I1n; exact H|].
    injection H as <-. reflexivity.
  - apply rs_alt_l; [apply I1n; exact H|]. injection H as <-. exact I.
Qed.

Theorem rec_sound n : SE n.
Proof.
  induction n as [|n IH]; intros A g pos c ins rem o Hg Hpos Hc H; [discriminate|].
  assert (Hcol : is_layout A g -> loc_col (ctx_loc (update_loc c s pos)) = loc_col (locof pos)).
  { intros HL. pose proof (gall_node _ _ _ Hg) as [_ HL'].
    destruct (cs_col _ _ _ _ _ CS pos c (HL' HL) Hc Hpos) as [_ K]. exact K. }
  assert (Hloc : is_layout A g -> ctx_loc (update_loc c s pos) = locof pos).
  { intros HL. pose proof (gall_node _ _ _ Hg) as [_ HL'].
    destruct (cs_col _ _ _ _ _ CS pos c (HL' HL) Hc Hpos) as [K _]. exact K. }
  pose proof (cs_upd _ _ _ _ _ CS pos pos c Hc ltac:(unfold len in *; lia)) as Hcu.
  pose proof (RLoc pos c Hc Hpos) as HL0.
  destruct g; cbn [full] in H; simpl in Hg.
  - injection H as <-. apply rs_pure.
  - unfold purefn_full in H. destruct (f tt) as [v|e|] eqn:Hf; cbn in H; [| |discriminate]; injection H as <-.
    + apply rs_purefn; auto.
    + apply rs_purefn_exn; auto.
  - injection H as <-. cbn. rewrite HL0. apply rs_unexpected.
  - unfold eof_full in H. destruct (Nat.eqb_spec pos (List.length s)).
    + injection H as <-. cbn. subst pos. apply rs_eof.
    + rewrite HL0 in H. destruct rem; injection H as <-; [apply rs_eof_skip|apply rs_eof_fail]; auto.
  - (* satisfy *) unfold satisfy_full in H. pose proof (probe_tok_iff test s pos) as Hpr.
    destruct (probe_tok test s pos) as [[t|]|e|]; cbn [obind] in H; try discriminate.
    + injection H as <-. apply rs_sat. auto.
    + rewrite HL0 in H. destruct rem as [left|]; [|injection H as <-; apply rs_sat_fail; auto].
      cbv zeta in H.
      pose proof (search_inv s (probe_tok test s) (sat_hit test s) (sat_miss test s) pos) as SI.
      assert (K1 : forall q y, probe_tok test s q = Ret (Some y) -> sat_hit test s q y).
      { intros q y K. pose proof (probe_tok_iff test s q) as K'. rewrite K in K'. exact K'. }
      assert (K2 : forall q, probe_tok test s q = Ret None -> sat_miss test s q).
      { intros q K. pose proof (probe_tok_iff test s q) as K'. rewrite K in K'. exact K'. }
      specialize (SI K1 K2).
      destruct (skip_search s pos (probe_tok test s)) as [[[j t]|]|e|]; cbn in H; try discriminate.
      * injection H as <-. cbn. apply rs_sat_skip; auto.
      * injection H as <-. cbn. apply rs_sat_none; auto.
      * injection H as <-. destruct SI as (j & S1 & S2 & S3). eapply rs_sat_later_exn; eauto.
        split; [exact S1|]. split; auto. cbn in S2.
        pose proof (probe_tok_iff test s j) as K'. rewrite S2 in K'. exact K'.
    + cbn in H. injection H as <-. apply rs_sat_exn. auto.
  - (* sym *) unfold sym_full in H. pose proof (probe_sym_iff teq x s pos) as Hpr.
    destruct (probe_sym teq x s pos) as [[t|]|e|]; cbn [obind] in H; try contradiction.
    + injection H as <-. apply rs_sym. auto.
    + rewrite HL0 in H. destruct rem as [left|]; [|injection H as <-; apply rs_sym_fail; auto].
      cbv zeta in H.
      pose proof (search_inv s (probe_sym teq x s) (sym_hit teq x s) (sym_miss teq x s) pos) as SI.
      assert (K1 : forall q y, probe_sym teq x s q = Ret (Some y) -> sym_hit teq x s q y).
      { intros q y K. pose proof (probe_sym_iff teq x s q) as K'. rewrite K in K'. exact K'. }
      assert (K2 : forall q, probe_sym teq x s q = Ret None -> sym_miss teq x s q).
      { intros q K. pose proof (probe_sym_iff teq x s q) as K'. rewrite K in K'. exact K'. }
      specialize (SI K1 K2).
      destruct (skip_search s pos (probe_sym teq x s)) as [[[j t]|]|e|]; cbn [obind] in H; try discriminate.
      * injection H as <-. cbn.
        replace (map off _) with (insertions left (f_insert None left x pos (locof pos) l [l]) ++
          [f_skip ins t (j + 1) (locof pos) (j - pos) [l] true])
          by (unfold insertions; destruct (Z.eqb left 0); reflexivity).
        apply rs_sym_skip; auto.
      * injection H as <-. cbn.
        replace (map off _) with (insertions left (f_insert None left x pos (locof pos) l [l]))
          by (unfold insertions; destruct (Z.eqb left 0); reflexivity).
        apply rs_sym_none; auto.
      * destruct SI as (j & S1 & S2 & S3). pose proof (probe_sym_iff teq x s j) as K'. rewrite S2 in K'. contradiction.
  - (* literal *) unfold literal_full in H. destruct (starts_with teq x s pos) eqn:Hs.
    + injection H as <-. apply rs_lit. exact Hs.
    + rewrite HL0 in H. destruct rem as [left|]; [|injection H as <-; apply rs_lit_fail; auto].
      cbv zeta in H.
      pose proof (search_inv s (probe_lit teq x s) (lit_hit teq x s) (lit_miss teq x s) pos) as SI.
      assert (K1 : forall q y, probe_lit teq x s q = Ret (Some y) -> lit_hit teq x s q y).
      { intros q y K. unfold probe_lit, lit_hit in *. change (stands_at teq x s q) with (starts_with teq x s q). destruct (starts_with teq x s q); congruence. }
      assert (K2 : forall q, probe_lit teq x s q = Ret None -> lit_miss teq x s q).
      { intros q K. unfold probe_lit, lit_miss in *. change (stands_at teq x s q) with (starts_with teq x s q). destruct (starts_with teq x s q); congruence. }
      specialize (SI K1 K2).
      destruct (skip_search s pos (probe_lit teq x s)) as [[[j []]|]|e|]; cbn [obind] in H; try discriminate.
      * injection H as <-. cbn.
        replace (map off _) with (insertions left (f_insert None left x pos (locof pos) l [l]) ++
          [f_skip ins x (j + List.length x) (locof pos) (j - pos) [l] true])
          by (unfold insertions; destruct (Z.eqb left 0); reflexivity).
        apply rs_lit_skip; auto.
      * injection H as <-. cbn.
        replace (map off _) with (insertions left (f_insert None left x pos (locof pos) l [l]))
          by (unfold insertions; destruct (Z.eqb left 0); reflexivity).
        apply rs_lit_none; auto.
      * destruct SI as (j & S1 & S2 & S3). discriminate S2.
  - (* regexp *) unfold regexp_full in H. pose proof (probe_re_iff m s pos) as Hpr.
    destruct (probe_re m s pos) as [[e v]|].
    + injection H as <-. apply rs_re. auto.
    + rewrite HL0 in H. destruct rem as [left|]; [|injection H as <-; apply rs_re_fail; auto].
      cbv zeta in H.
      pose proof (search_inv s (fun cur => Ret (probe_re m s cur)) (re_hit m s) (re_miss m s) pos) as SI.
      assert (K1 : forall q y, Ret (probe_re m s q) = Ret (Some y) -> re_hit m s q y).
      { intros q y K. pose proof (probe_re_iff m s q) as K'. injection K as K. rewrite K in K'. exact K'. }
      assert (K2 : forall q, Ret (probe_re m s q) = Ret None -> re_miss m s q).
      { intros q K. pose proof (probe_re_iff m s q) as K'. injection K as K. rewrite K in K'. exact K'. }
      specialize (SI K1 K2).
      destruct (skip_search s pos (fun cur => Ret (probe_re m s cur))) as [[[j [e v]]|]|e|]; cbn [obind] in H; try discriminate.
      * injection H as <-. cbn. apply rs_re_skip; auto.
      * injection H as <-. cbn. apply rs_re_none; auto.
      * destruct SI as (j & S1 & S2 & S3). discriminate S2.
  - (* fmap *) unfold fmap_full in H. destruct Hg as [_ Hg].
    pose proof (fun o => IH _ g pos c ins rem o Hg Hpos Hc) as I1.
    destruct (full E n g s pos c ins rem) as [[o1|e|rc]|e|]; cbn [obind res_fmap] in H; try discriminate;
      specialize (I1 _ eq_refl); cbn in I1.
    + unfold ok_fmap in H. destruct (f (ok_val o1)) as [w|e|] eqn:Hf; cbn in H; try discriminate; injection H as <-.
      * eapply RecSpec.rs_fmap; eauto.
      * eapply rs_fmap_raise; eauto.
    + injection H as <-. apply rs_fmap_fail; auto.
    + unfold rec_fmap in H. pose proof (off_fmap f (rc_reps rc)) as K.
      destruct (mapM (rep_fmap f) (rc_reps rc)) as [l|e|]; cbn in H; try discriminate; injection H as <-.
      * eapply rs_fmap_offer; eauto.
      * eapply rs_fmap_offer_raise; eauto.
    + injection H as <-. apply rs_fmap_exn; auto.
  - (* alt *) destruct Hg as [_ [Hg1 Hg2]]. eapply alt_rsound; eauto.
  - (* bind *) unfold bind_full in H. destruct Hg as [_ [Hg1 Hg2]].
    pose proof (fun o => IH _ g pos c ins rem o Hg1 Hpos Hc) as I1.
    pose proof (fun r => fgood n _ g pos c ins rem r Hg1 Hpos Hc) as G.
    destruct (full E n g s pos c ins rem) as [[o1|e|rc]|e|]; cbn [obind] in H; try discriminate;
      specialize (I1 _ eq_refl); cbn in I1.
    + destruct (G _ eq_refl) as (G1 & G2 & G3 & G4). clear G.
      replace (if ok_con o1 then _ else _) with
        (rb <- full E n (f (ok_val o1)) s (ok_pos o1) (ok_ctx o1) ins (if Nat.ltb pos (ok_pos o1) then Some ins else rem) ;;
         Ret (res_prepend (ok_exp o1) (ok_con o1) rb)) in H by (rewrite <- G2; destruct (ok_con o1); reflexivity).
      set (rem' := if Nat.ltb pos (ok_pos o1) then Some ins else rem) in *.
      pose proof (fun o => IH _ (f (ok_val o1)) (ok_pos o1) (ok_ctx o1) ins rem' o (Hg2 _) (proj2 G1) G3) as I2.
      pose proof (fun r => full_rokcon n _ (f (ok_val o1)) (ok_pos o1) (ok_ctx o1) ins rem' r (Hg2 _) (proj2 G1) G3) as OC.
      rewrite G4 in I2.
      destruct (full E n (f (ok_val o1)) s (ok_pos o1) (ok_ctx o1) ins rem') as [r|e|]; cbn [obind] in H; try discriminate.
      * cbn [rabs] in H. rewrite (rab_prepend pos (ok_pos o1)) in H by auto. injection H as <-.
        eapply rs_bind; [exact I1|]. apply I2. reflexivity.
      * injection H as <-. change (RExn e) with (r_after (A:=B) pos (ok_pos o1) (ok_exp o1) (RExn e)).
        eapply rs_bind; [exact I1|]. apply I2. reflexivity.
    + injection H as <-. apply rs_bind_fail; auto.
    + rewrite rabs_continue in H. specialize (G _ eq_refl). cbn in G.
      destruct (cabs _) as [x|] eqn:Hx; [|discriminate].
      eapply conts_sound with (k := f) (m := ctx_mark c) in Hx; auto.
      * destruct x as [rs|e]; injection H as <-.
        -- eapply rs_bind_offer; eauto.
        -- eapply rs_bind_offer_exn; eauto.
      * cbn. intros v pos' c' left o' Hp' Hc' Hm' K. rewrite <- Hm'. apply IH; [apply Hg2|auto..].
      * cbn. intros v pos' c' left o' Hp' Hc' K.
        apply (full_rokcon _ _ _ _ _ _ _ _ (Hg2 v) Hp' Hc' K).
    + injection H as <-. apply rs_bind_exn; auto.
  - (* seq *) unfold seq_full in H. destruct Hg as [_ [Hg1 Hg2]].
    pose proof (fun o => IH _ g1 pos c ins rem o Hg1 Hpos Hc) as I1.
    pose proof (fun r => fgood n _ g1 pos c ins rem r Hg1 Hpos Hc) as G.
    destruct (full E n g1 s pos c ins rem) as [[o1|e|rc]|e|]; cbn [obind] in H; try discriminate;
      specialize (I1 _ eq_refl); cbn in I1.
    + destruct (G _ eq_refl) as (G1 & G2 & G3 & G4). clear G. cbv zeta in H. rewrite G2 in H.
      set (rem' := if Nat.ltb pos (ok_pos o1) then Some ins else rem) in *.
      pose proof (fun o => IH _ g2 (ok_pos o1) (ok_ctx o1) ins rem' o Hg2 (proj2 G1) G3) as I2.
      pose proof (fun r => full_rokcon n _ g2 (ok_pos o1) (ok_ctx o1) ins rem' r Hg2 (proj2 G1) G3) as OC.
      rewrite G4 in I2.
      destruct (full E n g2 s (ok_pos o1) (ok_ctx o1) ins rem') as [r|e|]; cbn [obind] in H; try discriminate.
      * destruct (rab_fmap_pure (merge (ok_val o1)) r) as (r' & Hr' & Hab). rewrite Hr' in H. cbn [obind rabs] in H.
        rewrite (rab_prepend pos (ok_pos o1)) in H.
        2: reflexivity.
        2:{ specialize (OC _ eq_refl). destruct r as [o2|e2|c2]; cbn in Hr'.
            - injection Hr' as <-. exact OC.
            - injection Hr' as <-. exact I.
            - destruct (rec_fmap _ c2); [injection Hr' as <-; exact I|discriminate|discriminate]. }
        rewrite Hab in H.
        replace (r_after pos (ok_pos o1) (ok_exp o1) (on_rvalue (merge (ok_val o1)) (rab r)))
          with (on_rvalue (merge (ok_val o1)) (r_after pos (ok_pos o1) (ok_exp o1) (rab r))) in H
          by (destruct r; cbn; try reflexivity; rewrite !map_map; reflexivity).
        injection H as <-. eapply rs_seq; [exact I1|]. apply I2. reflexivity.
      * injection H as <-.
        change (RExn e) with (on_rvalue (merge (ok_val o1)) (r_after (A:=B) pos (ok_pos o1) (ok_exp o1) (RExn e))).
        eapply rs_seq; [exact I1|]. apply I2. reflexivity.
    + injection H as <-. apply rs_seq_fail; auto.
    + rewrite rabs_continue in H. specialize (G _ eq_refl). cbn in G.
      destruct (cabs _) as [x|] eqn:Hx; [|discriminate].
      eapply conts_sound with (k := fun _ => g2) (m := ctx_mark c) in Hx; auto.
      * destruct x as [rs|e]; injection H as <-.
        -- eapply rs_seq_offer; eauto.
        -- eapply rs_seq_offer_exn; eauto.
      * cbn. intros v pos' c' left o' Hp' Hc' Hm' K. rewrite <- Hm'. apply IH; auto.
      * cbn. intros v pos' c' left o' Hp' Hc' K.
        apply (full_rokcon _ _ _ _ _ _ _ _ Hg2 Hp' Hc' K).
    + injection H as <-. apply rs_seq_exn; auto.
  - (* maybe *) unfold maybe_full in H. destruct Hg as [_ Hg].
    pose proof (fun o => IH _ g pos c ins None o Hg Hpos Hc) as I1.
    pose proof (none_open n A g pos c ins) as N1.
    destruct (full E n g s pos c ins None) as [[o1|[la xa ca]|rc]|e|]; cbn [obind] in H; try discriminate;
      specialize (I1 _ eq_refl); cbn in I1.
    + injection H as <-. apply (rs_maybe E s locof _ _ _ _ _ _ _ I1). exact I.
    + destruct ca; cbn in H; injection H as <-.
      * apply (rs_maybe E s locof _ _ _ _ _ _ _ I1). reflexivity.
      * eapply rs_maybe_none; eauto.
    + specialize (N1 _ eq_refl). cbn [res_con] in H. rewrite N1 in *.
      destruct (rab_fmap_pure Some (RRec rc)) as (r' & Hr' & Hab). rewrite Hr' in H. cbn [rabs] in H.
      rewrite Hab in H. injection H as <-. cbn [rab].
      rewrite N1. apply (rs_maybe E s locof _ _ _ _ _ _ _ I1). reflexivity.
    + injection H as <-. apply (rs_maybe E s locof _ _ _ _ _ _ _ I1). exact I.
  - (* many *) destruct Hg as [_ Hg].
    refine (proj1 (many_rsound _ g (full E n g) Hg _ _ n pos c ins rem o Hpos Hc) H).
    + intros pos' c' ins' o' Hp' Hc' K. apply IH; auto.
    + intros pos' c' ins' r' Hp' Hc' K. eapply fgood; eauto.
  - (* attempt *) unfold attempt_full in H. pose proof Hg as [_ Hg'].
    destruct rem as [left|].
    + apply rs_attempt. apply IH; auto.
    + assert (K : exists d, dabs (fast E (S n) (GAttempt g) s pos c) = Some d /\ o = plain d).
      { cbn [fast]. unfold attempt_fast.
        destruct (fast E n g s pos c) as [[o1|e]|e|]; cbn in H |- *; try discriminate;
          injection H as <-; eexists; split; reflexivity. }
      destruct K as (d & K & ->). apply rs_attempt_plain.
      eapply (diag_sound E s get locof lay Hco Hlay HE); eauto.
  - (* label *) unfold label_full in H. destruct Hg as [_ Hg].
    pose proof (fun o => IH _ g pos c ins rem o Hg Hpos Hc) as I1.
    pose proof (fun r => full_rokcon n _ g pos c ins rem r Hg Hpos Hc) as OC.
    destruct (full E n g s pos c ins rem) as [r|e|]; cbn [obind] in H; try discriminate.
    + cbn [rabs] in H. rewrite (rab_label pos) in H by auto. injection H as <-.
      apply rs_label. apply I1. reflexivity.
    + injection H as <-. change (RExn e) with (r_label (A:=A) pos x (RExn e)). apply rs_label. apply I1. reflexivity.
  - (* recover *) unfold recover_full in H. destruct Hg as [_ Hg].
    pose proof (fun o => IH _ g pos c ins rem o Hg Hpos Hc) as I1.
    destruct (full E n g s pos c ins rem) as [[o1|e|rc]|e|]; cbn [obind] in H; try discriminate;
      specialize (I1 _ eq_refl); apply rs_recover in I1.
    + injection H as <-. exact I1.
    + injection H as <-. exact I1.
    + cbn [rabs] in H. rewrite rab_ranked in H. injection H as <-. exact I1.
    + injection H as <-. exact I1.
  - (* recover_with *) unfold recover_with_full in H. destruct Hg as [_ Hg].
    destruct rem as [left|]; [|apply rs_with_none; apply IH; auto].
    pose proof (fun o => IH _ g pos c ins (Some left) o Hg Hpos Hc) as I1.
    rewrite HL0 in H.
    destruct (full E n g s pos c ins (Some left)) as [r|e|]; cbn [obind] in H; try discriminate.
    2:{ injection H as <-. apply rs_with_off; [apply I1; reflexivity|left; exact I]. }
    specialize (I1 _ eq_refl). cbn in I1.
    destruct (settled_dec (rab r)) as [S|S].
    { assert (K : o = rab r); [|rewrite K; apply rs_with_off; auto].
      clear I1. destruct r as [o1|e1|c1]; cbn in S, H; rewrite ?S in H; injection H as <-; cbn; rewrite ?S; reflexivity. }
    destruct (Z.eqb_spec left 0) as [->|Hne].
    { assert (K : o = rab r); [|rewrite K; apply rs_with_off; auto].
      clear I1. destruct r as [o1|e1|c1]; cbn in H; try destruct (er_con e1) eqn:Q; try destruct (rc_con c1) eqn:Q;
        injection H as <-; cbn; rewrite ?Q; reflexivity. }
    destruct r as [o1|[la xa ca]|[ra mn la xa ca]]; cbn in S, I1, H.
    + destruct S as [(? & ? & S)|(? & ? & ? & ? & S)]; discriminate.
    + destruct ca; [destruct S as [(? & ? & S)|(? & ? & ? & ? & S)]; discriminate|].
      cbn in H. injection H as <-. eapply rs_with_fail; eauto.
    + destruct ca; [destruct S as [(? & ? & S)|(? & ? & ? & ? & S)]; discriminate|].
      cbn in H. injection H as <-. eapply rs_with_offer; eauto.
  - (* recover_with_fn *) unfold recover_with_full in H. destruct Hg as [_ Hg].
    destruct rem as [left|]; [|apply rs_withfn_none; apply IH; auto].
    pose proof (fun o => IH _ g pos c ins (Some left) o Hg Hpos Hc) as I1.
    rewrite HL0 in H.
    destruct (full E n g s pos c ins (Some left)) as [r|e|]; cbn [obind] in H; try discriminate.
    2:{ injection H as <-. apply rs_withfn_off; [apply I1; reflexivity|left; exact I]. }
    specialize (I1 _ eq_refl). cbn in I1.
    destruct (settled_dec (rab r)) as [S|S].
    { assert (K : o = rab r); [|rewrite K; apply rs_withfn_off; auto].
      clear I1. destruct r as [o1|e1|c1]; cbn in S, H; rewrite ?S in H; injection H as <-; cbn; rewrite ?S; reflexivity. }
    destruct (Z.eqb_spec left 0) as [->|Hne].
    { assert (K : o = rab r); [|rewrite K; apply rs_withfn_off; auto].
      clear I1. destruct r as [o1|e1|c1]; cbn in H; try destruct (er_con e1) eqn:Q; try destruct (rc_con c1) eqn:Q;
        injection H as <-; cbn; rewrite ?Q; reflexivity. }
    destruct r as [o1|[la xa ca]|[ra mn la xa ca]]; cbn in S, I1, H.
    + destruct S as [(? & ? & S)|(? & ? & ? & ? & S)]; discriminate.
    + destruct ca; [destruct S as [(? & ? & S)|(? & ? & ? & ? & S)]; discriminate|].
      destruct (fn s pos) as [x|e|] eqn:Hf; cbn in H; try discriminate; injection H as <-.
      * eapply rs_withfn_fail; eauto.
      * eapply rs_withfn_raise; eauto. cbn. discriminate.
    + destruct ca; [destruct S as [(? & ? & S)|(? & ? & ? & ? & S)]; discriminate|].
      destruct (fn s pos) as [x|e|] eqn:Hf; cbn in H; try discriminate; injection H as <-.
      * eapply rs_withfn_offer; eauto.
      * eapply rs_withfn_raise; eauto. cbn. discriminate.
  - (* block *) unfold block_full in H. destruct Hg as [_ Hg]. apply rs_block.
    cbv zeta in H. rewrite (Hcol I) in H.
    set (c1 := set_mark (update_loc c s pos) (loc_col (locof pos))) in *.
    change (loc_col (locof pos)) with (ctx_mark c1).
    apply IH; auto.
    destruct (full E n g s pos c1 ins rem); cbn [obind] in H; auto.
    cbn [rabs] in *. rewrite rab_set_ctx in H. exact H.
  - (* aligned *) unfold aligned_full in H. destruct Hg as [_ Hg].
    cbv zeta in H. rewrite upd_mark'', (Hcol I), (Hloc I) in H.
    destruct (Z.eqb_spec (ctx_mark c) (loc_col (locof pos))) as [He|He].
    + apply rs_aligned; auto. rewrite <- (upd_mark'' c pos). apply IH; auto.
    + injection H as <-. apply rs_aligned_no. auto.
  - (* indented *) unfold indented_full in H. destruct Hg as [_ Hg].
    cbv zeta in H. rewrite upd_mark'', (Hcol I), (Hloc I) in H.
    destruct (Z.eqb_spec (ctx_mark c + delta) (loc_col (locof pos))) as [He|He].
    + apply rs_indented; auto.
      set (c1 := set_mark (update_loc c s pos) (loc_col (locof pos))) in *.
      change (loc_col (locof pos)) with (ctx_mark c1).
      apply IH; auto.
      destruct (full E n g s pos c1 ins rem); cbn [obind] in H; auto.
      cbn [rabs] in *. rewrite rab_set_ctx in H. exact H.
    + injection H as <-. apply rs_indented_no. auto.
  - apply rs_delay. apply IH; auto.
  - injection H as <-. apply rs_undef.
Qed.

(** ** Completeness *)
Definition rreach {A} (g : gram T V A) pos c ins rem (o : rres A) : Prop :=
  exists n, rabs (full E n g s pos c ins rem) = Some o.

Lemma rreach_any A (g : gram T V A) pos c ins rem o : rreach g pos c ins rem o ->
  exists n x, (forall m, n <= m -> full E m g s pos c ins rem = x) /\ rabs x = Some o.
Proof.
  intros [n H]. exists n, (full E n g s pos c ins rem). split; auto.
  intros m Hm. eapply full_mono; eauto. intros K. rewrite K in H. discriminate.
Qed.
Lemma rreach_succ A (g : gram T V A) pos c ins rem v j X : gok lay g -> pos <= len -> Cok pos c ->
  rreach g pos c ins rem (RSucc v j X) ->
  exists n o, (forall m, n <= m -> full E m g s pos c ins rem = Ret (ROk o)) /\
    ok_val o = v /\ ok_pos o = j /\ ok_exp o = X /\ pos <= j <= len /\ ok_con o = Nat.ltb pos j /\
    Cok j (ok_ctx o) /\ ctx_mark (ok_ctx o) = ctx_mark c.
Proof.
  intros Hg Hp Hc [n H]. apply rabs_succ in H as (o & H & H1 & H2 & H3).
  pose proof (fgood _ _ _ _ _ _ _ _ Hg Hp Hc H) as (G1 & G2 & G3 & G4).
  subst j v. exists n, o. split; [|auto 10].
  intros m Hm. eapply full_mono; eauto. discriminate.
Qed.
Lemma rreach_fail A (g : gram T V A) pos c ins rem b l X : rreach g pos c ins rem (RFail b l X) ->
  exists n, forall m, n <= m -> full E m g s pos c ins rem = Ret (RErr (Err l X b)).
Proof.
  intros [n H]. apply rabs_fail in H. exists n. intros m Hm. eapply full_mono; eauto. discriminate.
Qed.
Lemma rreach_exn A (g : gram T V A) pos c ins rem e : rreach g pos c ins rem (RExn e) ->
  exists n, forall m, n <= m -> full E m g s pos c ins rem = Raise e.
Proof.
  intros [n H]. apply rabs_exn in H. exists n. intros m Hm. eapply full_mono; eauto. discriminate.
Qed.
Lemma rreach_offer A (g : gram T V A) pos c ins rem n0 b l X rs : gok lay g -> pos <= len -> Cok pos c ->
  rreach g pos c ins rem (ROffer n0 b l X rs) ->
  exists n reps, (forall m, n <= m -> full E m g s pos c ins rem = Ret (RRec (Recd reps n0 l X b))) /\
    map off reps = rs /\ Forall (goodrep (ctx_mark c)) reps.
Proof.
  intros Hg Hp Hc [n H]. apply rabs_offer in H as (reps & H & ->).
  pose proof (fgood _ _ _ _ _ _ _ _ Hg Hp Hc H) as G. cbn in G.
  exists n, reps. split; [|auto]. intros m Hm. eapply full_mono; eauto. discriminate.
Qed.
Lemma rreach_okcon A (g : gram T V A) i c ins rem n r : gok lay g -> i <= len -> Cok i c ->
  (forall m, n <= m -> full E m g s i c ins rem = Ret r) -> rokcon i r.
Proof. intros Hg Hi Hc H. eapply (full_rokcon n); eauto. Qed.
Lemma rokcon_fmap {A B} (h : A -> B) i (r : res T A) r' : rokcon i r ->
  res_fmap (fun v => Ret (h v)) r = Ret r' -> rokcon i r'.
Proof.
  destruct r as [o2|e2|c2]; cbn; intros H K.
  - injection K as <-. exact H.
  - injection K as <-. exact I.
  - destruct (rec_fmap _ c2); [injection K as <-; exact I|discriminate|discriminate].
Qed.

Lemma full_many A (p : gram T V A) n pos c ins rem :
  full E (S n) (GMany p) s pos c ins rem = many_full (full E n p) n false [] s pos c ins.
Proof. reflexivity. Qed.
Lemma many_full_S A (p : pfull T A) n con v pos c ins :
  many_full p (S n) con v s pos c ins =
  (r <- p s pos c ins None ;;
   match r with
   | ROk o =>
       if ok_con o then
         many_full p n true (v ++ [ok_val o]) s (ok_pos o) (ok_ctx o) ins
       else Raise ManyEmpty
   | RRec r =>
       continue_parse r ins (fun _ p' c' _ => many_full p n false [] s p' c' ins)
         (fun a b => v ++ a :: b)
   | RErr e =>
       if er_con e then Ret (RErr e)
       else Ret (ROk (Ok v pos c (er_exp e) con))
   end).
Proof. reflexivity. Qed.

Lemma lef_cont_many A (p : gram T V A) N ins (x : repair T A) :
  lef (cont_one ins (fun _ pos c r => full E (S N) (GMany p) s pos c ins (Some r)) cons x)
      (cont_one ins (fun _ pos c _ => many_full (full E (S N) p) N false [] s pos c ins)
         (fun a b => [] ++ a :: b) x).
Proof.
  unfold cont_one. apply lef_bind; [|intros r; apply lef_refl].
  rewrite full_many. apply lef_many_full; auto. intros; apply full_lef; lia.
Qed.

Definition CP A (g : gram T V A) m i ins rem (o : rres A) : Prop :=
  gok lay g -> i <= len -> forall c, Cok i c -> ctx_mark c = m -> rreach g i c ins rem o.
Definition CC A B C (k : A -> gram T V B) (merge : A -> B -> C) m ins rs (x : list (offer C) + exn) : Prop :=
  (forall v, gok lay (k v)) -> forall reps, map off reps = rs -> Forall (goodrep m) reps ->
  exists n, forall N, n <= N ->
    cabs (flat_mapM (cont_one ins (fun v p c r => full E N (k v) s p c ins (Some r)) merge) reps) = Some x.

Scheme rsem_mut := Minimality for RecSpec.rsem Sort Prop
  with rconts_mut := Minimality for RecSpec.rconts Sort Prop.

Ltac pick H Hg0 c Hc Hm Hi := specialize (H Hg0 Hi c Hc Hm).

Theorem rec_complete A (g : gram T V A) m i ins rem o :
  rsem A g m i ins rem o -> CP A g m i ins rem o.
Proof.
  intros HH. induction HH using rsem_mut with (P0 := CC).
  all: match goal with
    | |- CP _ _ _ _ _ _ _ => intros Hg Hi c Hc Hm; pose proof Hg as Hg0; simpl in Hg0;
        pose proof (RLoc _ c Hc Hi) as HL0; unfold CP in *
    | |- CC _ _ _ _ _ _ _ _ _ => intros Hk reps Hreps HG
    end.
  - exists 1. reflexivity.
  - exists 1. cbn. unfold purefn_full. rewrite H. reflexivity.
  - exists 1. cbn. unfold purefn_full. rewrite H. reflexivity.
  - exists 1. cbn. rewrite HL0. reflexivity.
  - exists 1. cbn. unfold eof_full. rewrite Nat.eqb_refl. reflexivity.
  - exists 1. cbn. unfold eof_full. destruct (Nat.eqb_spec i (List.length s)); [contradiction|].
    cbn. rewrite HL0. reflexivity.
  - exists 1. cbn. unfold eof_full. destruct (Nat.eqb_spec i (List.length s)); [contradiction|].
    cbn. rewrite HL0. reflexivity.
  - (* satisfy *) exists 1. cbn. unfold satisfy_full. rewrite (sat_hit_probe _ _ _ _ H). reflexivity.
  - exists 1. cbn. unfold satisfy_full. rewrite (sat_raise_probe _ _ _ _ H). reflexivity.
  - exists 1. cbn. unfold satisfy_full. rewrite (sat_miss_probe _ _ _ H). cbn. rewrite HL0. reflexivity.
  - exists 1. cbn. unfold satisfy_full. rewrite (sat_miss_probe _ _ _ H). cbn.
    rewrite (search_hit _ _ _ _ _ _ _ H0 (sat_hit_probe test s) (sat_miss_probe test s)). cbn.
    rewrite HL0. reflexivity.
  - exists 1. cbn. unfold satisfy_full. rewrite (sat_miss_probe _ _ _ H). cbn.
    rewrite (search_none _ _ _ _ H0 (sat_miss_probe test s)). cbn.
    rewrite HL0. reflexivity.
  - exists 1. cbn. unfold satisfy_full. rewrite (sat_miss_probe _ _ _ H). cbn.
    rewrite (search_raise _ _ _ _ _ _ _ H0 (sat_raise_probe test e s) (sat_miss_probe test s)). reflexivity.
  - (* sym *) exists 1. cbn. unfold sym_full. rewrite (sym_hit_probe _ _ _ _ _ H). reflexivity.
  - exists 1. cbn. unfold sym_full. rewrite (sym_miss_probe _ _ _ _ H). cbn. rewrite HL0. reflexivity.
  - exists 1. cbn. unfold sym_full. rewrite (sym_miss_probe _ _ _ _ H). cbn.
    rewrite (search_hit _ _ _ _ _ _ _ H0 (sym_hit_probe teq x s) (sym_miss_probe teq x s)). cbn.
    rewrite HL0. unfold insertions. destruct (Z.eqb left 0); reflexivity.
  - exists 1. cbn. unfold sym_full. rewrite (sym_miss_probe _ _ _ _ H). cbn.
    rewrite (search_none _ _ _ _ H0 (sym_miss_probe teq x s)). cbn.
    rewrite HL0. unfold insertions. destruct (Z.eqb left 0); reflexivity.
  - (* literal *) exists 1. cbn. unfold literal_full. rewrite H. reflexivity.
  - exists 1. cbn. unfold literal_full. rewrite H. cbn. rewrite HL0. reflexivity.
  - exists 1. cbn. unfold literal_full. rewrite H. cbn.
    rewrite (search_hit s (probe_lit teq x s) _ _ i j tt H0);
      [|intros q []; apply lit_hit_probe|apply lit_miss_probe]. cbn.
    rewrite HL0. unfold insertions. destruct (Z.eqb left 0); reflexivity.
  - exists 1. cbn. unfold literal_full. rewrite H. cbn.
    rewrite (search_none _ _ _ _ H0 (lit_miss_probe teq x s)). cbn.
    rewrite HL0. unfold insertions. destruct (Z.eqb left 0); reflexivity.
  - (* regexp *) exists 1. cbn. unfold regexp_full. rewrite (re_hit_probe _ _ _ _ H). reflexivity.
  - exists 1. cbn. unfold regexp_full. rewrite (re_miss_probe _ _ _ H). cbn. rewrite HL0. reflexivity.
  - exists 1. cbn. unfold regexp_full. rewrite (re_miss_probe _ _ _ H). cbn.
    rewrite (search_hit s (fun cur => Ret (probe_re re s cur)) _ _ i j (e, v) H0);
      [|intros q y K; f_equal; apply re_hit_probe; auto|intros q K; f_equal; apply re_miss_probe; auto]. cbn.
    rewrite HL0. reflexivity.
  - exists 1. cbn. unfold regexp_full. rewrite (re_miss_probe _ _ _ H). cbn.
    rewrite (search_none s (fun cur => Ret (probe_re re s cur)) _ i H0);
      [|intros q K; f_equal; apply re_miss_probe; auto]. cbn.
    rewrite HL0. reflexivity.
  - (* fmap *) destruct (rreach_succ _ _ _ _ _ _ _ _ _ (proj2 Hg0) Hi Hc (IHHH (proj2 Hg0) Hi c Hc Hm))
      as (n & o & Hn & Hv & Hj & HX & _).
    exists (S n). cbn [full]. unfold fmap_full. rewrite Hn by auto. cbn. unfold ok_fmap.
    rewrite Hv, H. cbn. congruence.
  - destruct (rreach_succ _ _ _ _ _ _ _ _ _ (proj2 Hg0) Hi Hc (IHHH (proj2 Hg0) Hi c Hc Hm))
      as (n & o & Hn & Hv & Hj & HX & _).
    exists (S n). cbn [full]. unfold fmap_full. rewrite Hn by auto. cbn. unfold ok_fmap.
    rewrite Hv, H. reflexivity.
  - destruct (rreach_fail _ _ _ _ _ _ _ _ _ (IHHH (proj2 Hg0) Hi c Hc Hm)) as (n & Hn).
    exists (S n). cbn [full]. unfold fmap_full. rewrite Hn by auto. reflexivity.
  - destruct (rreach_offer _ _ _ _ _ _ _ _ _ _ _ (proj2 Hg0) Hi Hc (IHHH (proj2 Hg0) Hi c Hc Hm))
      as (n1 & reps & Hn & Hr & _).
    exists (S n1). cbn [full]. unfold fmap_full. rewrite Hn by auto. cbn. unfold rec_fmap. cbn.
    pose proof (off_fmap f reps) as K. rewrite Hr, H in K.
    destruct (mapM (rep_fmap f) reps); cbn; try discriminate. injection K as ->. reflexivity.
  - destruct (rreach_offer _ _ _ _ _ _ _ _ _ _ _ (proj2 Hg0) Hi Hc (IHHH (proj2 Hg0) Hi c Hc Hm))
      as (n1 & reps & Hn & Hr & _).
    exists (S n1). cbn [full]. unfold fmap_full. rewrite Hn by auto. cbn. unfold rec_fmap. cbn.
    pose proof (off_fmap f reps) as K. rewrite Hr, H in K.
    destruct (mapM (rep_fmap f) reps); cbn; try discriminate. injection K as ->. reflexivity.
  - destruct (rreach_exn _ _ _ _ _ _ _ (IHHH (proj2 Hg0) Hi c Hc Hm)) as (n & Hn).
    exists (S n). cbn [full]. unfold fmap_full. rewrite Hn by auto. reflexivity.
  - (* alt *) destruct (rreach_any _ _ _ _ _ _ _ (IHHH (proj1 (proj2 Hg0)) Hi c Hc Hm)) as (n & x & Hn & Hx).
    exists (S n). cbn [full]. unfold alt_full. rewrite Hn by auto.
    destruct x as [[o1|[la xa ca]|[ra mn la xa ca]]|e|]; cbn in Hx |- *; try discriminate; injection Hx as <-;
      try reflexivity; cbn in H; subst ca; reflexivity.
  - destruct (rreach_fail _ _ _ _ _ _ _ _ _ (IHHH1 (proj1 (proj2 Hg0)) Hi c Hc Hm)) as (n1 & Hn1).
    destruct (rreach_any _ _ _ _ _ _ _ (IHHH2 (proj2 (proj2 Hg0)) Hi c Hc Hm)) as (n2 & x & Hn2 & Hx).
    exists (S (n1 + n2)). cbn [full]. unfold alt_full. rewrite Hn1 by lia. cbn [obind res_con er_con].
    rewrite Hn2 by lia.
    destruct x as [[o2|[lb xb cb]|[rb mn lb xb cb]]|e|]; cbn in Hx |- *; try discriminate; injection Hx as <-; cbn in H |- *.
    + pose proof (rreach_okcon _ _ _ _ _ _ _ _ (proj2 (proj2 Hg0)) Hi Hc Hn2) as OC. cbn in OC.
      rewrite <- OC. destruct (ok_con o2) eqn:K; cbn; unfold ok_set_exp; rewrite ?K; reflexivity.
    + subst cb. reflexivity.
    + subst cb. reflexivity.
    + reflexivity.
  - destruct (rreach_fail _ _ _ _ _ _ _ _ _ (IHHH1 (proj1 (proj2 Hg0)) Hi c Hc Hm)) as (n1 & Hn1).
    destruct (rreach_fail _ _ _ _ _ _ _ _ _ (IHHH2 (proj2 (proj2 Hg0)) Hi c Hc Hm)) as (n2 & Hn2).
    exists (S (n1 + n2)). cbn [full]. unfold alt_full. rewrite Hn1 by lia. cbn [obind res_con er_con].
    rewrite Hn2 by lia. reflexivity.
  - destruct (rreach_fail _ _ _ _ _ _ _ _ _ (IHHH1 (proj1 (proj2 Hg0)) Hi c Hc Hm)) as (n1 & Hn1).
    destruct (rreach_fail _ _ _ _ _ _ _ _ _ (IHHH2 (proj2 (proj2 Hg0)) Hi c Hc Hm)) as (n2 & Hn2).
    destruct (rreach_any _ _ _ _ _ _ _ (IHHH3 (proj1 (proj2 Hg0)) Hi c Hc Hm)) as (n3 & x & Hn3 & Hx).
    destruct (rreach_any _ _ _ _ _ _ _ (IHHH4 (proj2 (proj2 Hg0)) Hi c Hc Hm)) as (n4 & y & Hn4 & Hy).
    exists (S (n1 + n2 + n3 + n4)). cbn [full]. unfold alt_full. rewrite Hn1 by lia. cbn [obind res_con er_con].
    rewrite Hn2 by lia. cbn [obind res_con er_con]. unfold alt_recover. cbn [res_exp er_exp]. unfold Append.
    rewrite Hn3, Hn4 by lia.
    destruct x as [r1|e1|]; cbn [rabs] in Hx; try discriminate; injection Hx as <-.
    2:{ cbn. destruct o2; reflexivity. }
    destruct y as [r2|e2|]; cbn [rabs] in Hy; try discriminate; injection Hy as <-.
    2:{ cbn. destruct r1; reflexivity. }
    destruct r1 as [?|?|c1], r2 as [?|?|c2]; cbn [rabs obind];
      try (rewrite (rab_join l); reflexivity);
      try (rewrite rab_relabelled; reflexivity);
      reflexivity.
  - destruct (rreach_fail _ _ _ _ _ _ _ _ _ (IHHH1 (proj1 (proj2 Hg0)) Hi c Hc Hm)) as (n1 & Hn1).
    destruct (rreach_fail _ _ _ _ _ _ _ _ _ (IHHH2 (proj2 (proj2 Hg0)) Hi c Hc Hm)) as (n2 & Hn2).
    destruct (rreach_exn _ _ _ _ _ _ _ (IHHH3 (proj1 (proj2 Hg0)) Hi c Hc Hm)) as (n3 & Hn3).
    exists (S (n1 + n2 + n3)). cbn [full]. unfold alt_full. rewrite Hn1 by lia. cbn [obind res_con er_con].
    rewrite Hn2 by lia. cbn [obind res_con er_con]. unfold alt_recover. cbn [res_exp er_exp].
    rewrite Hn3 by lia. reflexivity.
  - (* bind *) destruct (rreach_succ _ _ _ _ _ _ _ _ _ (proj1 (proj2 Hg0)) Hi Hc
      (IHHH1 (proj1 (proj2 Hg0)) Hi c Hc Hm)) as (n & o1 & Hn & Hv & Hj & HX & Hb & Hcon & Hc' & Hm').
    destruct (rreach_any _ _ _ _ _ _ _ (IHHH2 (proj2 (proj2 Hg0) v) (proj2 Hb) (ok_ctx o1) Hc'
      ltac:(congruence))) as (n2 & x & Hn2 & Hx).
    exists (S (n + n2)). cbn [full]. unfold bind_full. rewrite Hn by lia. cbn [obind].
    replace (if ok_con o1 then _ else _) with
        (rb <- full E (n + n2) (f (ok_val o1)) s (ok_pos o1) (ok_ctx o1) ins (if Nat.ltb i j then Some ins else rem) ;;
         Ret (res_prepend (ok_exp o1) (ok_con o1) rb)) by (rewrite <- Hcon; destruct (ok_con o1); reflexivity).
    rewrite Hv, Hj, Hn2 by lia.
    destruct x as [r|e2|]; cbn [obind]; [|cbn in Hx |- *; injection Hx as <-; reflexivity|discriminate].
    pose proof (rreach_okcon _ _ _ _ _ _ _ _ (proj2 (proj2 Hg0) v) (proj2 Hb) Hc' Hn2) as OC.
    cbn [rabs] in *. rewrite (rab_prepend i j) by auto. injection Hx as <-. rewrite HX. reflexivity.
  - destruct (rreach_fail _ _ _ _ _ _ _ _ _ (IHHH (proj1 (proj2 Hg0)) Hi c Hc Hm)) as (n & Hn).
    exists (S n). cbn [full]. unfold bind_full. rewrite Hn by auto. reflexivity.
  - destruct (rreach_offer _ _ _ _ _ _ _ _ _ _ _ (proj1 (proj2 Hg0)) Hi Hc (IHHH (proj1 (proj2 Hg0)) Hi c Hc Hm))
      as (n1 & reps & Hn & Hr & HG). rewrite Hm in HG.
    destruct (IHHH0 (proj2 (proj2 Hg0)) reps Hr HG) as (n2 & Hn2).
    exists (S (n1 + n2)). cbn [full]. unfold bind_full. rewrite Hn by lia. cbn [obind].
    rewrite rabs_continue. cbn [rc_reps]. rewrite Hn2 by lia. reflexivity.
  - destruct (rreach_offer _ _ _ _ _ _ _ _ _ _ _ (proj1 (proj2 Hg0)) Hi Hc (IHHH (proj1 (proj2 Hg0)) Hi c Hc Hm))
      as (n1 & reps & Hn & Hr & HG). rewrite Hm in HG.
    destruct (IHHH0 (proj2 (proj2 Hg0)) reps Hr HG) as (n2 & Hn2).
    exists (S (n1 + n2)). cbn [full]. unfold bind_full. rewrite Hn by lia. cbn [obind].
    rewrite rabs_continue. cbn [rc_reps]. rewrite Hn2 by lia. reflexivity.
  - destruct (rreach_exn _ _ _ _ _ _ _ (IHHH (proj1 (proj2 Hg0)) Hi c Hc Hm)) as (n & Hn).
    exists (S n). cbn [full]. unfold bind_full. rewrite Hn by auto. reflexivity.
  - (* seq *) destruct (rreach_succ _ _ _ _ _ _ _ _ _ (proj1 (proj2 Hg0)) Hi Hc
      (IHHH1 (proj1 (proj2 Hg0)) Hi c Hc Hm)) as (n & o1 & Hn & Hv & Hj & HX & Hb & Hcon & Hc' & Hm').
    destruct (rreach_any _ _ _ _ _ _ _ (IHHH2 (proj2 (proj2 Hg0)) (proj2 Hb) (ok_ctx o1) Hc'
      ltac:(congruence))) as (n2 & x & Hn2 & Hx).
    exists (S (n + n2)). cbn [full]. unfold seq_full. rewrite Hn by lia. cbn [obind]. cbv zeta.
    rewrite Hcon, Hv, Hj, Hn2 by lia.
    destruct x as [r|e2|]; cbn [obind]; [|cbn in Hx |- *; injection Hx as <-; reflexivity|discriminate].
    pose proof (rreach_okcon _ _ _ _ _ _ _ _ (proj2 (proj2 Hg0)) (proj2 Hb) Hc' Hn2) as OC.
    destruct (rab_fmap_pure (merge v) r) as (r' & Hr' & Hab). rewrite Hr'. cbn [obind rabs] in *.
    rewrite (rab_prepend i j) by (auto; eapply rokcon_fmap; eauto). rewrite Hab, HX. injection Hx as <-.
    destruct r; cbn; try reflexivity; rewrite !map_map; reflexivity.
  - destruct (rreach_fail _ _ _ _ _ _ _ _ _ (IHHH (proj1 (proj2 Hg0)) Hi c Hc Hm)) as (n & Hn).
    exists (S n). cbn [full]. unfold seq_full. rewrite Hn by auto. reflexivity.
  - destruct (rreach_offer _ _ _ _ _ _ _ _ _ _ _ (proj1 (proj2 Hg0)) Hi Hc (IHHH (proj1 (proj2 Hg0)) Hi c Hc Hm))
      as (n1 & reps & Hn & Hr & HG). rewrite Hm in HG.
    destruct (IHHH0 (fun _ => proj2 (proj2 Hg0)) reps Hr HG) as (n2 & Hn2).
    exists (S (n1 + n2)). cbn [full]. unfold seq_full. rewrite Hn by lia. cbn [obind].
    rewrite rabs_continue. cbn [rc_reps]. rewrite Hn2 by lia. reflexivity.
  - destruct (rreach_offer _ _ _ _ _ _ _ _ _ _ _ (proj1 (proj2 Hg0)) Hi Hc (IHHH (proj1 (proj2 Hg0)) Hi c Hc Hm))
      as (n1 & reps & Hn & Hr & HG). rewrite Hm in HG.
    destruct (IHHH0 (fun _ => proj2 (proj2 Hg0)) reps Hr HG) as (n2 & Hn2).
    exists (S (n1 + n2)). cbn [full]. unfold seq_full. rewrite Hn by lia. cbn [obind].
    rewrite rabs_continue. cbn [rc_reps]. rewrite Hn2 by lia. reflexivity.
  - destruct (rreach_exn _ _ _ _ _ _ _ (IHHH (proj1 (proj2 Hg0)) Hi c Hc Hm)) as (n & Hn).
    exists (S n). cbn [full]. unfold seq_full. rewrite Hn by auto. reflexivity.
  - (* maybe *) destruct (rreach_any _ _ _ _ _ _ _ (IHHH (proj2 Hg0) Hi c Hc Hm)) as (n & x & Hn & Hx).
    exists (S n). cbn [full]. unfold maybe_full. rewrite Hn by auto.
    destruct x as [r|e|]; cbn [obind]; [|cbn in Hx |- *; injection Hx as <-; reflexivity|discriminate].
    cbn [rabs] in Hx. injection Hx as <-.
    destruct (rab_fmap_pure Some r) as (r' & Hr' & Hab). rewrite <- Hab.
    destruct r as [o1|e1|c1]; cbn in H |- *; rewrite ?H.
    + cbn in Hr'. injection Hr' as <-. reflexivity.
    + cbn in Hr'. injection Hr' as <-. reflexivity.
    + cbn in Hr'. rewrite Hr'. reflexivity.
  - destruct (rreach_fail _ _ _ _ _ _ _ _ _ (IHHH (proj2 Hg0) Hi c Hc Hm)) as (n & Hn).
    exists (S n). cbn [full]. unfold maybe_full. rewrite Hn by auto. reflexivity.
  - (* many *) destruct (rreach_succ _ _ _ _ _ _ _ _ _ (proj2 Hg0) Hi Hc
      (IHHH1 (proj2 Hg0) Hi c Hc Hm)) as (n & o1 & Hn & Hv & Hj & HX & Hb & Hcon & Hc' & Hm').
    destruct (rreach_any _ _ _ _ _ _ _ (IHHH2 Hg (proj2 Hb) (ok_ctx o1) Hc'
      ltac:(congruence))) as (n2 & x & Hn2 & Hx).
    pose (N := n + n2). exists (S (S N)). rewrite full_many, many_full_S, Hn by lia.
    cbn [obind]. assert (Hlt : Nat.ltb i j = true) by (apply Nat.ltb_lt; auto). rewrite Hcon, Hlt, Hj, Hv.
    rewrite many_full_acc.
    assert (K : rabs (many_full (full E (S N) p) N false [] s j (ok_ctx o1) ins) = Some o).
    { eapply rabs_lef; [|rewrite <- Hx, <- (Hn2 (S N)) by lia; reflexivity].
      rewrite full_many. apply lef_many_full; auto. intros; apply full_lef; lia. }
    destruct (many_full _ _ _ _ _ _ _ _) as [r|e|]; cbn [rabs omap] in *; try discriminate; injection K as <-.
    + rewrite <- (rab_addv v r). reflexivity.
    + reflexivity.
  - destruct (rreach_succ _ _ _ _ _ _ _ _ _ (proj2 Hg0) Hi Hc
      (IHHH (proj2 Hg0) Hi c Hc Hm)) as (n & o1 & Hn & Hv & Hj & HX & Hb & Hcon & _).
    exists (S (S n)). rewrite full_many, many_full_S, Hn by lia. cbn. rewrite Hcon, Nat.ltb_irrefl. reflexivity.
  - destruct (rreach_fail _ _ _ _ _ _ _ _ _ (IHHH (proj2 Hg0) Hi c Hc Hm)) as (n & Hn).
    exists (S (S n)). rewrite full_many, many_full_S, Hn by lia. reflexivity.
  - destruct (rreach_fail _ _ _ _ _ _ _ _ _ (IHHH (proj2 Hg0) Hi c Hc Hm)) as (n & Hn).
    exists (S (S n)). rewrite full_many, many_full_S, Hn by lia. reflexivity.
  - destruct (rreach_offer _ _ _ _ _ _ _ _ _ _ _ (proj2 Hg0) Hi Hc (IHHH (proj2 Hg0) Hi c Hc Hm))
      as (n1 & reps & Hn & Hr & HG). rewrite Hm in HG.
    destruct (IHHH0 (fun _ => Hg) reps Hr HG) as (n2 & Hn2).
    pose (N := n1 + n2). exists (S (S N)). rewrite full_many, many_full_S, Hn by lia. cbn [obind].
    rewrite rabs_continue. cbn [rc_reps rc_min rc_con rc_loc rc_exp].
    rewrite (cabs_lef _ _ _ (lef_flat_mapM _ _ reps (lef_cont_many _ p N ins)) (Hn2 (S N) ltac:(lia))).
    reflexivity.
  - destruct (rreach_offer _ _ _ _ _ _ _ _ _ _ _ (proj2 Hg0) Hi Hc (IHHH (proj2 Hg0) Hi c Hc Hm))
      as (n1 & reps & Hn & Hr & HG). rewrite Hm in HG.
    destruct (IHHH0 (fun _ => Hg) reps Hr HG) as (n2 & Hn2).
    pose (N := n1 + n2). exists (S (S N)). rewrite full_many, many_full_S, Hn by lia. cbn [obind].
    rewrite rabs_continue. cbn [rc_reps rc_min rc_con rc_loc rc_exp].
    rewrite (cabs_lef _ _ _ (lef_flat_mapM _ _ reps (lef_cont_many _ p N ins)) (Hn2 (S N) ltac:(lia))).
    reflexivity.
  - destruct (rreach_exn _ _ _ _ _ _ _ (IHHH (proj2 Hg0) Hi c Hc Hm)) as (n & Hn).
    exists (S (S n)). rewrite full_many, many_full_S, Hn by lia. reflexivity.
  - (* attempt *) destruct (IHHH (proj2 Hg0) Hi c Hc Hm) as [n Hn]. exists (S n). exact Hn.
  - apply (diag_complete E s get locof lay Hco Hlay HE) with (c := c) in H; auto.
    destruct H as [[|n] Hn]; [discriminate|]. exists (S n). cbn [full fast] in *. unfold attempt_full, attempt_fast in *.
    destruct (fast E n p s i c) as [[o1|e1]|e|]; cbn in *; try discriminate; injection Hn as <-; reflexivity.
  - (* label *) destruct (rreach_any _ _ _ _ _ _ _ (IHHH (proj2 Hg0) Hi c Hc Hm)) as (n & y & Hn & Hy).
    exists (S n). cbn [full]. unfold label_full. rewrite Hn by auto.
    destruct y as [r|e|]; cbn [obind]; [|cbn in Hy |- *; injection Hy as <-; reflexivity|discriminate].
    cbn [rabs] in *.
    rewrite (rab_label i) by (exact (rreach_okcon _ _ _ _ _ _ _ _ (proj2 Hg0) Hi Hc Hn)). injection Hy as <-. reflexivity.
  - (* recover *) destruct (rreach_any _ _ _ _ _ _ _ (IHHH (proj2 Hg0) Hi c Hc Hm)) as (n & y & Hn & Hy).
    exists (S n). cbn [full]. unfold recover_full. rewrite Hn by auto.
    destruct y as [[o1|e1|c1]|e|]; cbn [obind]; try discriminate; cbn [rabs] in *; injection Hy as <-; try reflexivity.
    rewrite rab_ranked. reflexivity.
  - (* recover_with *) destruct (IHHH (proj2 Hg0) Hi c Hc Hm) as [n Hn]. exists (S n). exact Hn.
  - destruct (rreach_any _ _ _ _ _ _ _ (IHHH (proj2 Hg0) Hi c Hc Hm)) as (n & y & Hn & Hy).
    exists (S n). cbn [full]. unfold recover_with_full. rewrite Hn by auto.
    destruct y as [r|e|]; cbn [obind]; [|cbn in Hy |- *; injection Hy as <-; reflexivity|discriminate].
    rewrite <- Hy. injection Hy as <-.
    destruct r as [o1|e1|c1]; [reflexivity|cbn in H |- *..];
      (destruct H as [H|H]; [rewrite H; cbn; rewrite ?H; reflexivity|]); subst left; cbn; [destruct (er_con e1) eqn:Q|destruct (rc_con c1) eqn:Q]; cbn; rewrite ?Q; reflexivity.
  - destruct (rreach_fail _ _ _ _ _ _ _ _ _ (IHHH (proj2 Hg0) Hi c Hc Hm)) as (n & Hn).
    exists (S n). cbn [full]. unfold recover_with_full. rewrite Hn by auto. cbn.
    destruct (Z.eqb_spec left 0); [contradiction|]. cbn. rewrite HL0. reflexivity.
  - destruct (rreach_offer _ _ _ _ _ _ _ _ _ _ _ (proj2 Hg0) Hi Hc (IHHH (proj2 Hg0) Hi c Hc Hm))
      as (n1 & reps & Hn & Hr & _).
    exists (S n1). cbn [full]. unfold recover_with_full. rewrite Hn by auto. cbn.
    destruct (Z.eqb_spec left 0); [contradiction|]. cbn. rewrite HL0, Hr. reflexivity.
  - (* recover_with_fn *) destruct (IHHH (proj2 Hg0) Hi c Hc Hm) as [n Hn]. exists (S n). exact Hn.
  - destruct (rreach_any _ _ _ _ _ _ _ (IHHH (proj2 Hg0) Hi c Hc Hm)) as (n & y & Hn & Hy).
    exists (S n). cbn [full]. unfold recover_with_full. rewrite Hn by auto.
    destruct y as [r|e|]; cbn [obind]; [|cbn in Hy |- *; injection Hy as <-; reflexivity|discriminate].
    rewrite <- Hy. injection Hy as <-.
    destruct r as [o1|e1|c1]; [reflexivity|cbn in H |- *..];
      (destruct H as [H|H]; [rewrite H; cbn; rewrite ?H; reflexivity|]); subst left; cbn; [destruct (er_con e1) eqn:Q|destruct (rc_con c1) eqn:Q]; cbn; rewrite ?Q; reflexivity.
  - destruct (rreach_fail _ _ _ _ _ _ _ _ _ (IHHH (proj2 Hg0) Hi c Hc Hm)) as (n & Hn).
    exists (S n). cbn [full]. unfold recover_with_full. rewrite Hn by auto. cbn.
    destruct (Z.eqb_spec left 0); [contradiction|]. rewrite H0. cbn. rewrite HL0. reflexivity.
  - destruct (rreach_offer _ _ _ _ _ _ _ _ _ _ _ (proj2 Hg0) Hi Hc (IHHH (proj2 Hg0) Hi c Hc Hm))
      as (n1 & reps & Hn & Hr & _).
    exists (S n1). cbn [full]. unfold recover_with_full. rewrite Hn by auto. cbn.
    destruct (Z.eqb_spec left 0); [contradiction|]. rewrite H0. cbn. rewrite HL0, Hr. reflexivity.
  - destruct (rreach_any _ _ _ _ _ _ _ (IHHH (proj2 Hg0) Hi c Hc Hm)) as (n & y & Hn & Hy).
    exists (S n). cbn [full]. unfold recover_with_full. rewrite Hn by auto.
    destruct y as [r|e0|]; cbn [obind];
      [|cbn in Hy; injection Hy as <-; exfalso; apply H; exact I|discriminate].
    cbn in Hy. injection Hy as <-.
    destruct r as [o1|e1|c1]; [exfalso; apply H; exact I|cbn in H |- *..].
    + destruct (er_con e1); [exfalso; auto|]. destruct (Z.eqb_spec left 0); [contradiction|]. rewrite H1. reflexivity.
    + destruct (rc_con c1); [exfalso; auto|]. destruct (Z.eqb_spec left 0); [contradiction|]. rewrite H1. reflexivity.
  - (* block *)
    destruct (cs_col _ _ _ _ _ CS i c (proj2 (gall_node _ _ _ Hg) I) Hc Hi) as [Hlo Hcl]. red in Hcl, Hlo.
    pose proof (cs_upd _ _ _ _ _ CS i i c Hc ltac:(unfold len in *; lia)) as Hcu.
    destruct (IHHH (proj2 Hg0) Hi (set_mark (update_loc c s i) (loc_col (locof i)))
      (cs_mark _ _ _ _ _ CS _ _ _ Hcu) eq_refl) as [n Hn].
    exists (S n). cbn [full]. unfold block_full. rewrite Hcl.
    destruct (full E n p s i _ ins rem); cbn [obind]; auto. cbn [rabs] in *. rewrite rab_set_ctx. exact Hn.
  - (* aligned *)
    destruct (cs_col _ _ _ _ _ CS i c (proj2 (gall_node _ _ _ Hg) I) Hc Hi) as [Hlo Hcl]. red in Hcl, Hlo.
    pose proof (cs_upd _ _ _ _ _ CS i i c Hc ltac:(unfold len in *; lia)) as Hcu.
    destruct (IHHH (proj2 Hg0) Hi (update_loc c s i) Hcu ltac:(rewrite upd_mark''; auto)) as [n Hn].
    exists (S n). cbn [full]. unfold aligned_full. rewrite Hcl, upd_mark''.
    rewrite Hm, H, Z.eqb_refl. exact Hn.
  - destruct (cs_col _ _ _ _ _ CS i c (proj2 (gall_node _ _ _ Hg) I) Hc Hi) as [Hlo Hcl]. red in Hcl, Hlo.
    exists 1. cbn [full]. unfold aligned_full. rewrite Hcl, upd_mark'', Hlo.
    destruct (Z.eqb_spec (ctx_mark c) (loc_col (locof i))); [congruence|reflexivity].
  - (* indented *)
    destruct (cs_col _ _ _ _ _ CS i c (proj2 (gall_node _ _ _ Hg) I) Hc Hi) as [Hlo Hcl]. red in Hcl, Hlo.
    pose proof (cs_upd _ _ _ _ _ CS i i c Hc ltac:(unfold len in *; lia)) as Hcu.
    destruct (IHHH (proj2 Hg0) Hi (set_mark (update_loc c s i) (loc_col (locof i)))
      (cs_mark _ _ _ _ _ CS _ _ _ Hcu) eq_refl) as [n Hn].
    exists (S n). cbn [full]. unfold indented_full. rewrite Hcl, upd_mark''.
    rewrite Hm, <- H, Z.eqb_refl.
    destruct (full E n p s i _ ins rem); cbn [obind]; auto. cbn [rabs] in *. rewrite rab_set_ctx. exact Hn.
  - destruct (cs_col _ _ _ _ _ CS i c (proj2 (gall_node _ _ _ Hg) I) Hc Hi) as [Hlo Hcl]. red in Hcl, Hlo.
    exists 1. cbn [full]. unfold indented_full. rewrite Hcl, upd_mark'', Hlo.
    destruct (Z.eqb_spec (ctx_mark c + delta) (loc_col (locof i))); [congruence|reflexivity].
  - (* delay *) destruct (IHHH (HE d) Hi c Hc Hm) as [n Hn]. exists (S n). exact Hn.
  - exists 1. reflexivity.
  - (* conts *) apply map_eq_nil in Hreps. subst reps. exists 0. reflexivity.
  - destruct reps as [|r0 reps]; [discriminate|]. injection Hreps as <- Hreps.
    inversion HG as [|? ? (G1 & G2 & G3) HG']; subst.
    destruct (rreach_succ _ _ _ _ _ _ _ _ _ (Hk _) G1 G2 (IHHH (Hk _) G1 _ G2 eq_refl))
      as (n1 & o1 & Hn & Hv & Hj & HX & Hb & Hcon & _).
    destruct (IHHH0 Hk reps eq_refl HG') as (n2 & Hn2).
    exists (n1 + n2). intros N HN. cbn [flat_mapM]. unfold cont_one at 1. rewrite Hn by lia. cbn [obind].
    specialize (Hn2 N ltac:(lia)). destruct (flat_mapM _ reps) as [l|e|]; cbn in Hn2 |- *; try discriminate.
    injection Hn2 as <-. rewrite off_cont_ok by congruence. congruence.
  - destruct reps as [|r0 reps]; [discriminate|]. injection Hreps as <- Hreps.
    inversion HG as [|? ? (G1 & G2 & G3) HG']; subst.
    destruct (rreach_offer _ _ _ _ _ _ _ _ _ _ _ (Hk _) G1 G2 (IHHH (Hk _) G1 _ G2 eq_refl))
      as (n1 & reps1 & Hn & Hr & _).
    destruct (IHHH0 Hk reps eq_refl HG') as (n2 & Hn2).
    exists (n1 + n2). intros N HN. cbn [flat_mapM]. unfold cont_one at 1. rewrite Hn by lia. cbn [obind].
    specialize (Hn2 N ltac:(lia)). destruct (flat_mapM _ reps) as [l0|e|]; cbn in Hn2 |- *; try discriminate.
    injection Hn2 as <-. rewrite map_app, map_map, (map_ext _ _ (off_cont_rec merge r0)), <- (map_map off).
    rewrite Hr. reflexivity.
  - destruct reps as [|r0 reps]; [discriminate|]. injection Hreps as <- Hreps.
    inversion HG as [|? ? (G1 & G2 & G3) HG']; subst.
    destruct (rreach_fail _ _ _ _ _ _ _ _ _ (IHHH (Hk _) G1 _ G2 eq_refl)) as (n1 & Hn).
    destruct (IHHH0 Hk reps eq_refl HG') as (n2 & Hn2).
    exists (n1 + n2). intros N HN. cbn [flat_mapM]. unfold cont_one at 1. rewrite Hn by lia. cbn [obind].
    specialize (Hn2 N ltac:(lia)). destruct (flat_mapM _ reps) as [l0|e|]; cbn in Hn2 |- *; try discriminate.
    exact Hn2.
  - destruct reps as [|r0 reps]; [discriminate|]. injection Hreps as <- Hreps.
    inversion HG as [|? ? (G1 & G2 & G3) HG']; subst.
    destruct (rreach_exn _ _ _ _ _ _ _ (IHHH (Hk _) G1 _ G2 eq_refl)) as (n1 & Hn).
    exists n1. intros N HN. cbn [flat_mapM]. unfold cont_one at 1. rewrite Hn by lia. reflexivity.
  - destruct reps as [|r0 reps]; [discriminate|]. injection Hreps as <- Hreps.
    inversion HG as [|? ? (G1 & G2 & G3) HG']; subst.
    destruct (rreach_any _ _ _ _ _ _ _ (IHHH (Hk _) G1 _ G2 eq_refl)) as (n1 & x & Hn & Hx).
    destruct (IHHH0 Hk reps eq_refl HG') as (n2 & Hn2).
    exists (n1 + n2). intros N HN. cbn [flat_mapM]. unfold cont_one at 1. rewrite Hn by lia.
    specialize (Hn2 N ltac:(lia)). destruct (flat_mapM _ reps) as [l0|e0|]; cbn in Hn2 |- *; try discriminate.
    injection Hn2 as ->.
    destruct x as [[o1|e1|c1]|e1|]; cbn in Hx |- *; try discriminate; try reflexivity.
    exfalso. apply (H e1). congruence.
Qed.

End RecProofs.
