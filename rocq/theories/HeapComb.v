(** The heap semantics refines the functional one: combinators and grammars. *)
From Verif Require Export HeapSim.

Section Comb.
Context {T : Type}.
Notation heap := (heap T).
Notation M := (M T).
Notation hpfast := (@hpfast T).
Notation hpfull := (@hpfull T).

Definition pgs {A} (p : hpfast A) (q : pfast T A) : Prop := forall s pos c, gs (p s pos c) (q s pos c).
Definition pgf {A} (p : hpfull A) (q : pfull T A) : Prop :=
  forall s pos c ins rem, gf (p s pos c ins rem) (q s pos c ins rem).

Lemma wp_upd {X} h0 h (m : M X) (r : X) Y (y : Y) (Q : heap -> X -> Y -> Prop) :
  (exists h', m h = (h', Ret r) /\ extends h0 h' /\ Q h' r y) -> wp h0 (m h) (Ret y) Q.
Proof. intros (h' & E & X1 & H). rewrite E. split; auto. Qed.

Ltac sub H Q := apply (wp_sub _ _ _ _ Q); [solve [apply H|eapply H]|first [assumption|apply extends_refl|eapply extends_trans; eassumption]|].

Lemma upd_s {A} h0 h (m : M (hsres A)) r (y : sres T A) :
  fresh_objects h0 h (s_addrs r) ->
  (exists h', m h = (h', Ret r) /\ extends h0 h' /\ h_next h' = h_next h /\ rd_s h' r = y) ->
  wp h0 (m h) (Ret y) (Qs h0).
Proof.
  intros F (h' & E & X & N & R). apply wp_upd with (r := r). exists h'. split; [auto|split; [auto|]]. split; auto.
  destruct F as [D F]. split; auto. rewrite N. auto.
Qed.
Lemma upd_f {A} h0 h (m : M (hres A)) r (y : res T A) :
  fresh_objects h0 h (addrs r) ->
  (exists h', m h = (h', Ret r) /\ extends h0 h' /\ h_next h' = h_next h /\ rd h' r = y) ->
  wp h0 (m h) (Ret y) (Qf h0).
Proof.
  intros F (h' & E & X & N & R). apply wp_upd with (r := r). exists h'. split; [auto|split; [auto|]]. split; auto.
  destruct F as [D F]. split; auto. rewrite N. auto.
Qed.
Lemma set_exp_s {A} (h0 h : heap) x (r : hsres A) : extends h0 h -> fresh_objects h0 h (s_addrs r) ->
  wp h0 (hs_set_exp x r h) (Ret (sres_set_exp x (rd_s h r))) (Qs h0).
Proof. intros X F. apply upd_s with (r := r); auto. apply hs_set_exp_ok; auto. Qed.
Lemma set_exp_f {A} (h0 h : heap) x (r : hres A) : extends h0 h -> fresh_objects h0 h (addrs r) ->
  wp h0 (h_set_exp x r h) (Ret (res_set_exp x (rd h r))) (Qf h0).
Proof. intros X F. apply upd_f with (r := r); auto. apply h_set_exp_ok; auto. Qed.
Lemma prep_s {A} (h0 h : heap) x b (r : hsres A) : extends h0 h -> fresh_objects h0 h (s_addrs r) ->
  wp h0 (hs_prepend x b r h) (Ret (sres_prepend x b (rd_s h r))) (Qs h0).
Proof. intros X F. apply upd_s with (r := r); auto. apply hs_prepend_ok; auto. Qed.
Lemma prep_f {A} (h0 h : heap) x b (r : hres A) : extends h0 h -> fresh_objects h0 h (addrs r) ->
  wp h0 (h_prepend x b r h) (Ret (res_prepend x b (rd h r))) (Qf h0).
Proof. intros X F. apply upd_f with (r := r); auto. apply h_prepend_ok; auto. Qed.
Lemma ctx_s {A} (h0 h : heap) c (r : hsres A) : extends h0 h -> fresh_objects h0 h (s_addrs r) ->
  wp h0 (hs_set_ctx c r h) (Ret (sres_set_ctx c (rd_s h r))) (Qs h0).
Proof. intros X F. apply upd_s with (r := r); auto. apply hs_set_ctx_ok; auto. Qed.
Lemma ctx_f {A} (h0 h : heap) c (r : hres A) : extends h0 h -> fresh_objects h0 h (addrs r) ->
  wp h0 (h_set_ctx c r h) (Ret (res_set_ctx c (rd h r))) (Qf h0).
Proof. intros X F. apply upd_f with (r := r); auto. apply h_set_ctx_ok; auto. Qed.

Lemma ret_s {A} (h0 h : heap) (r : hsres A) y : extends h0 h -> rd_s h r = y -> fresh_objects h0 h (s_addrs r) ->
  wp h0 (ret r h) (Ret y) (Qs h0).
Proof. intros. apply wp_ret; auto. split; auto. Qed.
Lemma ret_f {A} (h0 h : heap) (r : hres A) y : extends h0 h -> rd h r = y -> fresh_objects h0 h (addrs r) ->
  wp h0 (ret r h) (Ret y) (Qf h0).
Proof. intros. apply wp_ret; auto. split; auto. Qed.

(** reading a cell of a result after further allocations *)
Lemma fresh_ext (h0 h h' : heap) l : extends h h' -> fresh_objects h0 h l -> fresh_objects h0 h' l.
Proof. intros X [D F]. pose proof (ext_next _ _ X). split; auto. intros a Ha. apply F in Ha. lia. Qed.
Lemma fresh_in (h0 h : heap) l a : fresh_objects h0 h l -> In a l -> a < h_next h.
Proof. intros [_ F] Ha. apply F; auto. Qed.
Lemma rd_ext_s {A} (h0 h h' : heap) (r : hsres A) : extends h h' -> fresh_objects h0 h (s_addrs r) -> rd_s h' r = rd_s h r.
Proof. intros X F. apply rd_s_same, extends_same; auto. intros a Ha. eapply fresh_in; eauto. Qed.
Lemma rd_ext {A} (h0 h h' : heap) (r : hres A) : extends h h' -> fresh_objects h0 h (addrs r) -> rd h' r = rd h r.
Proof. intros X F. apply rd_same, extends_same; auto. intros a Ha. eapply fresh_in; eauto. Qed.
Lemma fresh_base (h0 h h' : heap) l : extends h0 h -> fresh_objects h h' l -> fresh_objects h0 h' l.
Proof. intros X [D F]. pose proof (ext_next _ _ X). split; auto. intros a Ha. apply F in Ha. lia. Qed.

Lemma hs_fmap_wp2 {A B} (f : A -> out B) (x : hsres A) (h : heap) :
  wp h (hs_fmap f x h) (sres_fmap f (rd_s h x))
    (fun (h' : heap) x' y => rd_s h' x' = y /\
       forall h0 : heap, fresh_objects h0 h (s_addrs x) -> fresh_objects h0 h' (s_addrs x')).
Proof.
  destruct x as [o|e].
  - simpl. unfold ok_fmap. rewrite obind_assoc. unfold h_ok_fmap. rewrite bindM_assoc.
    apply wp_call; [apply extends_refl|]. intros v _. cbn [obind].
    split; [apply extends_new'|]. split; cbn.
    + unfold rd_ok. simpl. rewrite Nat.eqb_refl. auto.
    + intros h0 [D F]. specialize (F _ (or_introl eq_refl)). split; [repeat constructor; auto|].
      simpl in *. intros a [<-|[]]. lia.
  - simpl. apply wp_ret; [apply extends_refl|]. split; auto.
Qed.

(** ** Alternation *)
Lemma alt_fast_ok {A} p q p' q' : pgs (A:=A) p p' -> pgs q q' -> pgs (h_alt_fast p q) (alt_fast p' q').
Proof.
  intros Hp Hq s pos c h. unfold h_alt_fast, alt_fast. sub Hp (@Qs T A).
  intros h1 x y X1 [<- F1]. destruct x as [o|e]; [apply ret_s; auto|]. simpl. apply wp_get.
  destruct (c_con (h_cell h1 (he_addr e))) eqn:Hc; [apply ret_s; auto|].
  sub Hq (@Qs T A). intros h2 x y X2 [<- F2]. apply wp_get.
  assert (X02 : extends h h2) by (eapply extends_trans; eauto).
  assert (F02 : fresh_objects h h2 (s_addrs x)) by (eapply fresh_base; [|exact F2]; eauto).
  replace (sres_con (rd_s h2 x)) with (c_con (h_cell h2 (hs_addr x))) by (destruct x; auto).
  destruct (c_con (h_cell h2 (hs_addr x))) eqn:Hc2; [apply ret_s; auto|].
  apply wp_get. rewrite (ext_cell _ _ (he_addr e) X2) by (eapply fresh_in; [exact F1|left; auto]).
  destruct x as [o|e2].
  - exact (set_exp_s h h2 (Append (er_exp (rd_err h1 e)) (ok_exp (rd_ok h2 o))) (HSOk o) X02 F02).
  - apply s_err_ok; auto.
Qed.

Lemma join_f {A} (a b : hrec A) x (h0 h1 h : heap) : extends h0 h1 -> extends h1 h ->
  fresh_objects h0 h1 (addrs (HRRec a)) -> fresh_objects h1 h (addrs (HRRec b)) ->
  wp h0 ((j <~ h_join_repairs a b ;; h_set_exp x (HRRec j)) h)
    (Ret (RRec (rec_set_exp x (join_repairs (rd_rec h a) (rd_rec h b))))) (Qf h0).
Proof.
  intros X0 X1 F0 F1. destruct (join_ok a b h0 h1 h X0 X1 F0 F1) as (h' & j & E & X & R & F).
  rewrite (bind_done _ _ _ _ _ E). rewrite <- R.
  change (RRec (rec_set_exp x (rd_rec h' j))) with (res_set_exp x (rd h' (HRRec j))).
  apply set_exp_f; auto.
Qed.
Lemma alt_recover_ok {A} p q p' q' la x : pgf (A:=A) p p' -> pgf q q' ->
  pgf (h_alt_recover p q la x) (alt_recover p' q' la x).
Proof.
  intros Hp Hq s pos c ins rem h. unfold h_alt_recover, alt_recover.
  destruct rem as [m|]; [|apply f_err_ok, extends_refl].
  sub Hp (@Qf T A). intros h1 ra y X1 [<- F1]. sub Hq (@Qf T A). intros h2 rb y X2 [<- F2].
  assert (X02 : extends h h2) by (eapply extends_trans; eauto).
  assert (F01 : fresh_objects h h2 (addrs ra)) by (eapply fresh_ext; [|exact F1]; eauto).
  assert (F02 : fresh_objects h h2 (addrs rb)) by (eapply fresh_base; [|exact F2]; eauto).
  assert (R1 : rd h1 ra = rd h2 ra) by (symmetry; eapply rd_ext; eauto). rewrite R1.
  destruct ra as [oa|ea|ra], rb as [ob|eb|rb]; simpl; try (apply f_err_ok; auto);
    try (apply (set_exp_f h h2 x (HRRec ra)); auto; fail);
    try (apply (set_exp_f h h2 x (HRRec rb)); auto; fail).
  apply (join_f ra rb x h h1 h2); auto.
Qed.

Lemma alt_full_ok {A} p q p' q' : pgf (A:=A) p p' -> pgf q q' -> pgf (h_alt_full p q) (alt_full p' q').
Proof.
  intros Hp Hq s pos c ins rem h. unfold h_alt_full, alt_full.
  sub Hp (@Qf T A). intros h1 ra y X1 [<- F1].
  assert (K : forall la, wp h ((ca <~ get (h_addr ra) ;; if c_con ca then ret ra
        else
          rb <~ q s pos c ins None ;;
          cb <~ get (h_addr rb) ;;
          if c_con cb then ret rb
          else
            ca <~ get (h_addr ra) ;;
            let expected := Append (c_exp ca) (c_exp cb) in
            match rb with
            | HROk _ => h_set_exp expected rb
            | _ => h_alt_recover p q la expected s pos c ins rem
            end) h1)
    (if c_con (h_cell h1 (h_addr ra)) then Ret (rd h1 ra)
        else
          rb <- q' s pos c ins None ;;
          if res_con rb then Ret rb
          else
            let expected := Append (c_exp (h_cell h1 (h_addr ra))) (res_exp rb) in
            match rb with
            | ROk ob => Ret (ROk (ok_set_exp expected ob))
            | _ => alt_recover p' q' la expected s pos c ins rem
            end) (Qf h)).
  { intros la. apply wp_get. destruct (c_con (h_cell h1 (h_addr ra))); [apply ret_f; auto|].
    sub Hq (@Qf T A). intros h2 rb y X2 [<- F2]. apply wp_get.
    assert (X02 : extends h h2) by (eapply extends_trans; eauto).
    assert (F02 : fresh_objects h h2 (addrs rb)) by (eapply fresh_base; [|exact F2]; eauto).
    replace (res_con (rd h2 rb)) with (c_con (h_cell h2 (h_addr rb))) by (destruct rb; auto).
    destruct (c_con (h_cell h2 (h_addr rb))); [apply ret_f; auto|].
    apply wp_get. rewrite (ext_cell _ _ (h_addr ra) X2) by (eapply fresh_in; [exact F1|left; auto]).
    destruct rb as [ob|eb|rb].
    - apply (set_exp_f h h2 _ (HROk ob)); auto.
    - apply gf_last; auto. apply alt_recover_ok; auto.
    - apply gf_last; auto. apply alt_recover_ok; auto. }
  destruct ra as [o|[l a]|[reps m l a]]; simpl.
  - apply ret_f; auto.
  - apply (K l).
  - apply (K l).
Qed.

(** ** Sequences *)
Lemma bind_fast_ok {A B} p p' (f : A -> hpfast B) f' : pgs p p' -> (forall v, pgs (f v) (f' v)) ->
  pgs (h_bind_fast p f) (bind_fast p' f').
Proof.
  intros Hp Hf s pos c h. unfold h_bind_fast, bind_fast. sub Hp (@Qs T A).
  intros h1 x y X1 [<- F1]. destruct x as [o|e]; [|apply ret_s; auto]. simpl. apply wp_get.
  sub Hf (@Qs T B). intros h2 x y X2 [<- F2]. apply wp_get.
  rewrite (ext_cell _ _ (hk_addr o) X2) by (eapply fresh_in; [exact F1|left; auto]).
  apply prep_s; [eapply extends_trans; eauto|eapply fresh_base; [|exact F2]; eauto].
Qed.
Lemma bind_full_ok {A B} p p' (f : A -> hpfull B) f' : pgf p p' -> (forall v, pgf (f v) (f' v)) ->
  pgf (h_bind_full p f) (bind_full p' f').
Proof.
  intros Hp Hf s pos c ins rem h. unfold h_bind_full, bind_full. sub Hp (@Qf T A).
  intros h1 x y X1 [<- F1]. destruct x as [o|e|r]; simpl.
  - apply wp_get.
    destruct (c_con (h_cell h1 (hk_addr o))) eqn:Hc.
    + sub Hf (@Qf T B). intros h2 x y X2 [<- F2]. apply wp_get.
      rewrite (ext_cell _ _ (hk_addr o) X2), Hc by (eapply fresh_in; [exact F1|left; auto]).
      apply prep_f; [eapply extends_trans; eauto|eapply fresh_base; [|exact F2]; eauto].
    + sub Hf (@Qf T B). intros h2 x y X2 [<- F2]. apply wp_get.
      rewrite (ext_cell _ _ (hk_addr o) X2), Hc by (eapply fresh_in; [exact F1|left; auto]).
      apply prep_f; [eapply extends_trans; eauto|eapply fresh_base; [|exact F2]; eauto].
  - apply ret_f; auto.
  - apply continue_ok; auto. intros. apply Hf.
Qed.
Lemma seq_fast_ok {A B C} p p' q q' (m : A -> B -> C) : pgs p p' -> pgs q q' ->
  pgs (h_seq_fast p q m) (seq_fast p' q' m).
Proof.
  intros Hp Hq s pos c h. unfold h_seq_fast, seq_fast. sub Hp (@Qs T A).
  intros h1 x y X1 [<- F1]. destruct x as [o|e]; [|apply ret_s; auto]. simpl. apply wp_get.
  sub Hq (@Qs T B). intros h2 x y X2 [<- F2].
  assert (X02 : extends h h2) by (eapply extends_trans; eauto).
  eapply wp_bind'; [exact X02|apply hs_fmap_wp2|].
  intros h3 x3 y3 X3 [<- F3]. apply wp_get.
  assert (Vo : hk_addr o < h_next h1) by (apply F1; left; auto). pose proof (ext_next _ _ X2).
    rewrite (ext_cell _ _ (hk_addr o) X3), (ext_cell _ _ (hk_addr o) X2) by lia.
  apply prep_s; [eapply extends_trans; eauto|]. eapply fresh_base; [exact X1|]. apply F3; auto.
Qed.
Lemma seq_full_ok {A B C} p p' q q' (m : A -> B -> C) : pgf p p' -> pgf q q' ->
  pgf (h_seq_full p q m) (seq_full p' q' m).
Proof.
  intros Hp Hq s pos c ins rem h. unfold h_seq_full, seq_full. sub Hp (@Qf T A).
  intros h1 x y X1 [<- F1]. destruct x as [o|e|r]; simpl.
  - apply wp_get. sub Hq (@Qf T B). intros h2 x y X2 [<- F2].
    assert (X02 : extends h h2) by (eapply extends_trans; eauto).
    eapply wp_bind'; [exact X02|apply h_fmap_wp; intros a Ha; eapply fresh_in; eauto|].
    intros h3 x3 y3 X3 (<- & F3 & V3). apply wp_get.
    assert (Vo : hk_addr o < h_next h1) by (apply F1; left; auto). pose proof (ext_next _ _ X2).
    rewrite (ext_cell _ _ (hk_addr o) X3), (ext_cell _ _ (hk_addr o) X2) by lia.
    apply prep_f; [eapply extends_trans; eauto|]. eapply fresh_base; [exact X1|]. apply F3; auto.
  - apply ret_f; auto.
  - apply continue_ok; auto.
Qed.

(** ** maybe, many *)
Lemma some_s {A} (h : heap) (x : hsres A) : rd_s h (hs_some x) = match rd_s h x with
  | SOk o => SOk (Ok (Some (ok_val o)) (ok_pos o) (ok_ctx o) (ok_exp o) (ok_con o)) | SErr e => SErr e end.
Proof. destruct x; auto. Qed.
Lemma maybe_fast_ok {A} p p' : pgs (A:=A) p p' -> pgs (h_maybe_fast p) (maybe_fast p').
Proof.
  intros Hp s pos c h. unfold h_maybe_fast, maybe_fast. sub Hp (@Qs T A).
  intros h1 x y X1 [<- F1]. apply wp_get. destruct x as [o|e]; simpl.
  - rewrite orb_true_r. apply ret_s; auto.
  - rewrite orb_false_r. destruct (c_con (h_cell h1 (he_addr e))) eqn:Hc; [apply ret_s; auto|].
    apply s_ok_ok; auto.
Qed.
Lemma reps_some {A} (h : heap) (l : list (hrep A)) :
  mapM (rep_fmap (fun v => Ret (Some v))) (map (rd_rep h) l) = Ret (map (rd_rep h) (map hrep_some l)).
Proof. induction l as [|r l IH]; simpl; auto. rewrite IH. auto. Qed.
Lemma some_f {A} (h : heap) (x : hres A) : res_fmap (fun v => Ret (Some v)) (rd h x) = Ret (rd h (h_some x)).
Proof. destruct x as [o|e|r]; auto. simpl. unfold rec_fmap. simpl. rewrite reps_some. auto. Qed.
Lemma some_addrs {A} (x : hres A) : addrs (h_some x) = addrs x.
Proof.
  destruct x as [o|e|r]; auto. unfold addrs. simpl. f_equal. induction (hc_reps r) as [|a l IH]; simpl; auto.
  f_equal. f_equal. auto.
Qed.
Lemma maybe_full_ok {A} p p' : pgf (A:=A) p p' -> pgf (h_maybe_full p) (maybe_full p').
Proof.
  intros Hp s pos c ins rem h. unfold h_maybe_full, maybe_full. sub Hp (@Qf T A).
  intros h1 x y X1 [<- F1]. apply wp_get.
  assert (K : wp h (ret (h_some x) h1) (res_fmap (fun v => Ret (Some v)) (rd h1 x)) (Qf h)).
  { rewrite some_f. apply ret_f; auto. rewrite some_addrs; auto. }
  replace (c_con (h_cell h1 (h_addr x))) with (res_con (rd h1 x)) by (destruct x; auto).
  destruct x as [o|e|r].
  - rewrite orb_true_r. exact K.
  - rewrite orb_false_r. cbn [rd] in *. destruct (res_con _); [exact K|]. apply f_ok_ok; auto.
  - rewrite orb_false_r. cbn [rd] in *. destruct (res_con _); [exact K|]. apply f_ok_ok; auto.
Qed.
Lemma many_fast_ok {A} p p' n : pgs (A:=A) p p' -> forall con v s pos c,
  gs (h_many_fast p n con v s pos c) (many_fast p' n con v s pos c).
Proof.
  intros Hp. induction n as [|n IH]; intros con v s pos c h; [split; [apply extends_refl|exact I]|].
  cbn [h_many_fast many_fast]. sub Hp (@Qs T A). intros h1 x y X1 [<- F1]. apply wp_get.
  destruct x as [o|e]; simpl.
  - destruct (c_con (h_cell h1 (hk_addr o))) eqn:Hc; [apply gs_last; auto|split; [auto|reflexivity]].
  - destruct (c_con (h_cell h1 (he_addr e))) eqn:Hc; [apply ret_s; auto|apply s_ok_ok; auto].
Qed.
Lemma many_full_ok {A} p p' n : pgf (A:=A) p p' -> forall con v s pos c ins,
  gf (h_many_full p n con v s pos c ins) (many_full p' n con v s pos c ins).
Proof.
  intros Hp. induction n as [|n IH]; intros con v s pos c ins h; [split; [apply extends_refl|exact I]|].
  cbn [h_many_full many_full]. sub Hp (@Qf T A). intros h1 x y X1 [<- F1].
  destruct x as [o|e|r]; simpl.
  - apply wp_get. destruct (c_con (h_cell h1 (hk_addr o))) eqn:Hc; [apply gf_last; auto|split; [auto|reflexivity]].
  - apply wp_get. destruct (c_con (h_cell h1 (he_addr e))) eqn:Hc; [apply ret_f; auto|apply f_ok_ok; auto].
  - apply continue_ok; auto.
Qed.

(** ** The other combinators *)
Lemma attempt_fast_ok {A} p p' : pgs (A:=A) p p' -> pgs (h_attempt_fast p) (attempt_fast p').
Proof.
  intros Hp s pos c h. unfold h_attempt_fast, attempt_fast. sub Hp (@Qs T A). intros h1 x y X1 [<- F1].
  destruct x as [o|e]; simpl; [apply ret_s; auto|]. apply wp_get. apply s_err_ok; auto.
Qed.
Lemma attempt_full_ok {A} pf pf' p p' : pgs (A:=A) pf pf' -> pgf p p' -> pgf (h_attempt_full pf p) (attempt_full pf' p').
Proof.
  intros Hf Hp s pos c ins rem h. unfold h_attempt_full, attempt_full.
  destruct rem; [apply Hp|]. unfold h_attempt_fast. rewrite bindM_assoc.
  sub Hf (@Qs T A). intros h1 x y X1 [<- F1]. destruct x as [o|e]; simpl; [apply ret_f; auto|].
  rewrite bindM_assoc. apply wp_get. apply f_err_ok; auto.
Qed.
Lemma label_fast_ok {A} p p' x : pgs (A:=A) p p' ->
  pgs (fun s pos c => r <~ p s pos c ;; hs_set_exp [x] r) (label_fast p' x).
Proof.
  intros Hp s pos c h. unfold label_fast. sub Hp (@Qs T A). intros h1 r y X1 [<- F1]. apply set_exp_s; auto.
Qed.
Lemma label_full_ok {A} p p' x : pgf (A:=A) p p' ->
  pgf (fun s pos c ins rem => r <~ p s pos c ins rem ;; h_set_exp [x] r) (label_full p' x).
Proof.
  intros Hp s pos c ins rem h. unfold label_full. sub Hp (@Qf T A). intros h1 r y X1 [<- F1]. apply set_exp_f; auto.
Qed.
Lemma fmap_fast_ok {A B} p p' (f : A -> out B) : pgs p p' ->
  pgs (fun s pos c => r <~ p s pos c ;; hs_fmap f r) (fmap_fast p' f).
Proof.
  intros Hp s pos c h. unfold fmap_fast. sub Hp (@Qs T A). intros h1 r y X1 [<- F1]. apply hs_fmap_wp; auto.
Qed.
Lemma fmap_full_ok {A B} p p' (f : A -> out B) : pgf p p' ->
  pgf (fun s pos c ins rem => r <~ p s pos c ins rem ;; h_fmap f r) (fmap_full p' f).
Proof.
  intros Hp s pos c ins rem h. unfold fmap_full. sub Hp (@Qf T A). intros h1 r y X1 [<- F1].
  apply (wp_base _ h1); auto. eapply wp_weaken; [apply h_fmap_wp; intros a Ha; eapply fresh_in; eauto|].
  intros h2 x y _ (R & F & _). split; auto.
Qed.
Lemma recover_full_ok {A} p p' : pgf (A:=A) p p' -> pgf (h_recover_full p) (recover_full p').
Proof.
  intros Hp s pos c ins rem h. unfold h_recover_full, recover_full. sub Hp (@Qf T A). intros h1 x y X1 [<- F1].
  destruct x as [o|e|r]; simpl; [apply ret_f; auto..|].
  destruct (h_prio_ok A r h h1 F1 X1) as (h2 & E & X2 & N2 & R2). rewrite (bind_done _ _ _ _ _ E).
  apply ret_f; auto; [simpl; rewrite R2; reflexivity|]. destruct F1 as [D F]. split; auto. rewrite N2. auto.
Qed.
Lemma recover_with_ok {A} p p' mk lab : pgf (A:=A) p p' ->
  pgf (h_recover_with_full p mk lab) (recover_with_full p' mk lab).
Proof.
  intros Hp s pos c ins rem h. unfold h_recover_with_full, recover_with_full.
  destruct rem as [m|]; [|apply Hp]. sub Hp (@Qf T A). intros h1 r y X1 [<- F1].
  assert (K : forall l x, (l = [] \/ exists rc, r = HRRec rc /\ l = hc_reps rc) ->
    forall mn lc xx cc pc, wp h ((rep <~ h_make_user_insert m x pos c pc (lab x) cc ;; f_rec (rep :: l) mn lc xx false) h1)
      (Ret (RRec (Recd (make_user_insert m x pos c pc (lab x) cc :: map (rd_rep h1) l) mn lc xx false))) (Qf h)).
  { intros l x Hl mn lc xx cc pc. eapply wp_rep; [apply one_op_ok|]. intros h2 rp X2 R2 F2.
    assert (Fl : fresh_objects h h1 (flat_map rep_addrs l)).
    { destruct Hl as [->|(rc & -> & ->)]; [split; [constructor|intros a []]|].
      destruct F1 as [D F]. inversion D; subst. split; auto. intros a Ha. apply F. right; auto. }
    destruct Fl as [D1 G1], F2 as [D2 G2]. pose proof (ext_next _ _ X1). pose proof (ext_next _ _ X2).
    apply f_rec_ok; [eapply extends_trans; eauto| |].
    - simpl. f_equal; [exact R2|]. apply rd_reps_same, extends_same; auto. intros a Ha. apply G1; auto.
    - change (flat_map rep_addrs (rp :: l)) with (rep_addrs rp ++ flat_map rep_addrs l). split.
      + apply NoDup_split. repeat split; auto. intros a Ha Hb. apply G2 in Ha. apply G1 in Hb. lia.
      + intros a Ha. apply in_app_iff in Ha as [Ha|Ha]; [apply G2 in Ha; lia|apply G1 in Ha; lia]. }
  destruct r as [o|e|rc]; cbn [rd].
  - apply ret_f; auto.
  - apply wp_get. cbn [res_con rd_err h_addr er_con].
    destruct (c_con (h_cell h1 (he_addr e))); [apply ret_f; auto|].
    destruct (Z.eqb m 0); [apply ret_f; auto|]. apply wp_call; auto. intros x _.
    apply (K [] x); auto.
  - apply wp_get. cbn [res_con rd_rec h_addr rc_con].
    destruct (c_con (h_cell h1 (hc_addr rc))); [apply ret_f; auto|].
    destruct (Z.eqb m 0); [apply ret_f; auto|]. apply wp_call; auto. intros x _.
    apply (K (hc_reps rc) x). eauto.
Qed.
Lemma block_fast_ok {A} p p' : pgs (A:=A) p p' -> pgs (h_block_fast p) (block_fast p').
Proof.
  intros Hp s pos c h. unfold h_block_fast, block_fast. cbv zeta. sub Hp (@Qs T A). intros h1 r y X1 [<- F1].
  apply ctx_s; auto.
Qed.
Lemma block_full_ok {A} p p' : pgf (A:=A) p p' -> pgf (h_block_full p) (block_full p').
Proof.
  intros Hp s pos c ins rem h. unfold h_block_full, block_full. cbv zeta. sub Hp (@Qf T A). intros h1 r y X1 [<- F1].
  apply ctx_f; auto.
Qed.
Lemma aligned_fast_ok {A} p p' : pgs (A:=A) p p' -> pgs (h_aligned_fast p) (aligned_fast p').
Proof.
  intros Hp s pos c h. unfold h_aligned_fast, aligned_fast. cbv zeta. destruct (Z.eqb _ _); [apply Hp|].
  apply s_err_ok, extends_refl.
Qed.
Lemma aligned_full_ok {A} p p' : pgf (A:=A) p p' -> pgf (h_aligned_full p) (aligned_full p').
Proof.
  intros Hp s pos c ins rem h. unfold h_aligned_full, aligned_full. cbv zeta. destruct (Z.eqb _ _); [apply Hp|].
  apply f_err_ok, extends_refl.
Qed.
Lemma indented_fast_ok {A} d p p' : pgs (A:=A) p p' -> pgs (h_indented_fast d p) (indented_fast d p').
Proof.
  intros Hp s pos c h. unfold h_indented_fast, indented_fast. cbv zeta. destruct (Z.eqb _ _).
  - sub Hp (@Qs T A). intros h1 r y X1 [<- F1]. apply ctx_s; auto.
  - apply s_err_ok, extends_refl.
Qed.
Lemma indented_full_ok {A} d p p' : pgf (A:=A) p p' -> pgf (h_indented_full d p) (indented_full d p').
Proof.
  intros Hp s pos c ins rem h. unfold h_indented_full, indented_full. cbv zeta. destruct (Z.eqb _ _).
  - sub Hp (@Qf T A). intros h1 r y X1 [<- F1]. apply ctx_f; auto.
  - apply f_err_ok, extends_refl.
Qed.
Lemma raise_s {A} e : gs (T:=T) (A:=A) (call (Raise e)) (Raise e).
Proof. intros h. split; [apply extends_refl|reflexivity]. Qed.
Lemma raise_f {A} e : gf (T:=T) (A:=A) (call (Raise e)) (Raise e).
Proof. intros h. split; [apply extends_refl|reflexivity]. Qed.

(** ** Grammars *)
Context {V : nat -> Type} (E : env T V).
Lemma gram_ok n : (forall A (g : gram T V A), pgs (hfast E n g) (fast E n g)) /\
                  (forall A (g : gram T V A), pgf (hfull E n g) (full E n g)).
Proof.
  induction n as [|n [IHs IHf]].
  - split; intros; intros ?; intros; split; try apply extends_refl; exact I.
  - split; intros A g.
    + intros s pos c. destruct g; cbn [hfast fast]; try apply fresh_s_ok.
      * apply fmap_fast_ok; auto.
      * apply alt_fast_ok; auto.
      * apply bind_fast_ok; auto.
      * apply seq_fast_ok; auto.
      * apply maybe_fast_ok; auto.
      * apply many_fast_ok; auto.
      * apply attempt_fast_ok; auto.
      * apply label_fast_ok; auto.
      * apply IHs.
      * apply IHs.
      * apply IHs.
      * apply block_fast_ok; auto.
      * apply aligned_fast_ok; auto.
      * apply indented_fast_ok; auto.
      * apply IHs.
      * apply raise_s.
    + intros s pos c ins rem. destruct g; cbn [hfull full].
      * exact (fresh_f_ok (pure_fast x s pos c)).
      * replace (purefn_full f s pos c ins rem) with (omap sres_res (purefn_fast f s pos c)); [apply fresh_f_ok|].
        unfold purefn_full, purefn_fast. destruct f; auto.
      * exact (fresh_f_ok (unexpected_fast l s pos c)).
      * apply eof_ok.
      * apply satisfy_ok.
      * apply sym_ok.
      * apply literal_ok.
      * apply regexp_ok.
      * apply fmap_full_ok; auto.
      * apply alt_full_ok; auto.
      * apply bind_full_ok; auto.
      * apply seq_full_ok; auto.
      * apply maybe_full_ok; auto.
      * apply many_full_ok; auto.
      * apply attempt_full_ok; auto.
      * apply label_full_ok; auto.
      * apply recover_full_ok; auto.
      * apply recover_with_ok; auto.
      * apply recover_with_ok; auto.
      * apply block_full_ok; auto.
      * apply aligned_full_ok; auto.
      * apply indented_full_ok; auto.
      * apply IHf.
      * apply raise_f.
Qed.
End Comb.
