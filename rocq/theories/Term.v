(** Termination. *)
From Verif Require Export TermSpec RunLemmas Budget EditSpec.

Definition conv {A} (x : nat -> out A) : Prop := exists n, x n <> NoFuel.

Lemma conv_lim {A} (x : nat -> out A) : mono x -> conv x -> exists r, r <> NoFuel /\ lim x r.
Proof. intros Hm [n H]. exists (x n). split; auto. eapply lim_at; eauto. Qed.
Lemma conv_bind {A B} (x : nat -> out A) (y : nat -> A -> out B) :
  mono x -> conv x -> (forall a n, x n = Ret a -> conv (fun n => y n a)) ->
  (forall a, mono (fun n => y n a)) ->
  conv (fun n => obind (x n) (y n)).
Proof.
  intros Hx [n Hn] Hy My. destruct (x n) as [a|e|] eqn:E; [|exists n; rewrite E; discriminate|congruence].
  destruct (Hy a n E) as [m Hm]. exists (n + m).
  assert (K : x (n + m) = Ret a) by (destruct (Hx n (n + m)); [lia|congruence|congruence]).
  rewrite K. simpl. destruct (My a m (n + m)) as [L|L]; [lia|congruence|congruence].
Qed.
Lemma conv_const {A} (r : out A) : r <> NoFuel -> conv (fun _ => r).
Proof. intros H. exists 0. exact H. Qed.
Lemma conv_shift {A} (x : nat -> out A) : conv (fun n => x (S n)) -> conv x.
Proof. intros [n H]. exists (S n). exact H. Qed.

Lemma mono_flat_mapM {A B} (f : nat -> A -> out (list B)) l :
  (forall a, mono (fun n => f n a)) -> mono (fun n => flat_mapM (f n) l).
Proof. intros H n m Hm. apply lef_flat_mapM. intros a. apply (H a). auto. Qed.
Lemma conv_flat_mapM {A B} (f : nat -> A -> out (list B)) l :
  (forall a, mono (fun n => f n a)) -> (forall a, In a l -> conv (fun n => f n a)) ->
  conv (fun n => flat_mapM (f n) l).
Proof.
  intros Hm. induction l as [|a l IH]; simpl; intros H; [apply conv_const; discriminate|].
  apply (conv_bind _ (fun n y => ys <- flat_mapM (f n) l ;; Ret (y ++ ys))); auto.
  - intros y n _. apply (conv_bind _ (fun _ ys => Ret (y ++ ys))); auto using mono_flat_mapM.
    + intros; apply conv_const; discriminate.
    + intros; apply mono_const.
  - intros y. apply mono_bind; [apply mono_flat_mapM; auto|intros; apply mono_const].
Qed.
Lemma conv_continue {T A B C} (rc : recr T A) ins
    (f : nat -> A -> nat -> ctx T -> Z -> out (res T B)) (merge : A -> B -> C) :
  (forall v p c z, mono (fun n => f n v p c z)) ->
  (forall rep, In rep (rc_reps rc) ->
     conv (fun n => f n (r_val rep) (r_pos rep) (r_ctx rep) (r_ins rep))) ->
  conv (fun n => continue_parse rc ins (f n) merge).
Proof.
  intros Hm H. unfold continue_parse.
  assert (M : forall a, mono (fun n => cont_one ins (f n) merge a)).
  { intros a. unfold cont_one. apply mono_bind; [apply Hm|intros; apply mono_const]. }
  apply (conv_bind _ (fun _ reps => Ret (RRec (Recd reps (rc_min rc) (rc_loc rc) (rc_exp rc) (rc_con rc))))).
  - apply mono_flat_mapM. apply M.
  - apply conv_flat_mapM; auto. intros rep Hin. unfold cont_one.
    apply (conv_bind _ (fun _ rb => match rb with
        | ROk o => Ret [cont_ok ins merge rep o]
        | RErr _ => Ret [] | RRec rb => Ret (map (cont_rec merge rep) (rc_reps rb)) end)).
    + apply Hm.
    + auto.
    + intros r n _. apply conv_const. destruct r; discriminate.
    + intros; apply mono_const.
  - intros. apply conv_const; discriminate.
  - intros. apply mono_const.
Qed.
Lemma mono_continue {T A B C} (rc : recr T A) ins
    (f : nat -> A -> nat -> ctx T -> Z -> out (res T B)) (merge : A -> B -> C) :
  (forall v p c z, mono (fun n => f n v p c z)) ->
  mono (fun n => continue_parse rc ins (f n) merge).
Proof. intros H n m Hm. apply lef_continue_parse. intros. apply (H v p c r n m Hm). Qed.

Lemma mapM_halts {A B} (f : A -> out B) l : (forall a, In a l -> f a <> NoFuel) -> mapM f l <> NoFuel.
Proof.
  induction l as [|a l IH]; simpl; intros H; [discriminate|].
  pose proof (H a (or_introl eq_refl)). destruct (f a); simpl; try congruence; try discriminate.
  assert (mapM f l <> NoFuel) by auto. destruct (mapM f l); simpl; congruence.
Qed.

Section Term.
Context {T : Type} {V : nat -> Type}.
Variable E : env T V.
Variable s : list T.
Notation len := (List.length s).
Notation gram := (gram T V).
Hypothesis HE : wf_env E.

Let CS := any_system (T:=T) s True.
Let HE' : forall d, gok True (E d).
Proof. intros d. apply gok_wf; auto. Qed.

Lemma full_info A (g : gram A) pos c ins rem n r : wf g -> pos <= len ->
  full E n g s pos c ins rem = Ret r ->
  match r with
  | ROk o => pos <= ok_pos o <= len /\ ok_con o = Nat.ltb pos (ok_pos o) /\
      lang E A g (map inl (slice s pos (ok_pos o))) (ok_val o)
  | RErr _ => True
  | RRec rc => forall rep, In rep (rc_reps rc) ->
      pos <= r_pos rep <= len /\ (rem = None -> pos < r_pos rep) /\
      (exists w, lang E A g w (r_val rep)) /\
      ((0 <= ins)%Z -> (forall z, rem = Some z -> 0 <= z)%Z ->
         (0 <= r_ins rep)%Z /\
         (r_pos rep = pos -> exists z, rem = Some z /\ (r_ins rep < z)%Z))
  end.
Proof.
  intros Hg Hp H. assert (Hg' : gok True g) by (apply gok_wf; auto).
  pose proof H as Hb. eapply full_good in H; eauto; [|exact I].
  destruct r as [o|e|rc]; auto.
  - destruct H as (D & H2 & H3 & _). repeat split; try lia; auto. eapply ederiv_sentence; eauto.
  - destruct H as [_ H]. intros rep Hin. destruct (H rep Hin) as [(sk & F & D & Hne & _ & R1 & _ & _) R2].
    repeat split; try lia; auto.
    + destruct (ederiv_explained E s _ HE _ _ _ _ _ _ _ D Hg Hp) as (es & _ & _ & L & _). eauto.
    + intros; eapply full_budget in Hb; eauto; [|exact I].
      destruct (Hb rep Hin) as (sk' & _ & _ & _ & _ & Hl & _). exact Hl.
    + intros Heq. pose proof (fun a b => full_budget E s _ _ _ _ CS HE' n _ g pos c ins rem _ Hg' Hp I a b Hb) as K.
      destruct (K H0 H1 rep Hin) as (sk' & F' & B1 & _ & _ & Bl & B2). clear K.
      rewrite Heq in *. unfold bud in B2. rewrite Nat.eqb_refl in B2.
      destruct (ederiv_sorted E s _ HE _ _ _ _ _ _ _ D Hg Hp) as [Hs _].
      assert (Hall : forall x, In x sk -> is_ins (fst x) = true).
      { clear - Hs. assert (G : forall i j, i <= j -> ops_sorted i i sk ->
            forall x, In x sk -> is_ins (fst x) = true).
        { clear. induction sk as [|[[k|l] p] sk IH]; intros i j Hi Hs x Hx; [destruct Hx| |].
          - destruct Hs as (H1 & H2 & H3). apply ops_sorted_le in H3. lia.
          - destruct Hs as (H1 & H3). destruct Hx as [<-|Hx]; auto.
            eapply (IH i i); auto. eapply (ops_sorted_start (V:=fun _ => unit)); eauto. }
        intros x Hx. eapply (G pos pos); eauto. }
      assert (K : (1 <= ins_at pos sk')%Z).
      { clear - F F' Hne Hall B1.
        remember (map opskel (r_ops rep)) as m. destruct F as [|y x m sk Fy F]; [congruence|].
        destruct sk' as [|x' sk']; [inversion F'|].
        assert (F1 : skrel (fun _ _ => True) y x') by (inversion F'; auto).
        destruct F1 as [F1 _]. destruct Fy as [F2 _].
        pose proof (Hall x (or_introl eq_refl)) as Hi. rewrite <- F2, F1 in Hi.
        pose proof (B1 x' (or_introl eq_refl)) as Hb. destruct x' as [o p]. cbn [ins_at fst snd] in *.
        rewrite Hi. replace p with pos by lia. rewrite Nat.eqb_refl. cbn [andb].
        pose proof (ins_at_nonneg pos sk'). lia. }
      destruct rem as [z|]; [exists z; split; auto; lia|lia].
Qed.
Lemma fast_info A (g : gram A) pos c n r : wf g -> pos <= len ->
  fast E n g s pos c = Ret r ->
  match r with
  | SOk o => pos <= ok_pos o <= len /\ ok_con o = Nat.ltb pos (ok_pos o) /\
      lang E A g (map inl (slice s pos (ok_pos o))) (ok_val o)
  | SErr _ => True
  end.
Proof.
  intros Hg Hp H. assert (Hg' : gok True g) by (apply gok_wf; auto).
  eapply fast_good in H; eauto; [|exact I].
  destruct r as [o|e]; auto.
  destruct H as (D & H2 & H3 & _). repeat split; try lia; auto. eapply ederiv_sentence; eauto.
Qed.

(** the parsers called by a parser; those called at its start position *)
Definition children (P : forall B, gram B -> Prop) {A} (g : gram A) : Prop :=
  match g with
  | GFmap p _ => P _ p
  | GAlt p q => P _ p /\ P _ q
  | GBind p f => P _ p /\ forall v, P _ (f v)
  | GSeq p q _ => P _ p /\ P _ q
  | GMaybe p => P _ p
  | GMany p => P _ p
  | GAttempt p => P _ p
  | GLabel p _ => P _ p
  | GRecover p => P _ p
  | GRecoverWith p _ _ => P _ p
  | GRecoverWithFn p _ _ => P _ p
  | GBlock p => P _ p
  | GAligned p => P _ p
  | GIndented _ p => P _ p
  | _ => True
  end.
Definition heads (P : forall B, gram B -> Prop) {A} (g : gram A) : Prop :=
  match g with
  | GFmap p _ => P _ p
  | GAlt p q => P _ p /\ P _ q
  | GBind p f => P _ p /\ forall v, lang E _ p [] v -> P _ (f v)
  | GSeq p q _ => P _ p /\ forall v, lang E _ p [] v -> P _ q
  | GMaybe p => P _ p
  | GMany p => P _ p
  | GAttempt p => P _ p
  | GLabel p _ => P _ p
  | GRecover p => P _ p
  | GRecoverWith p _ _ => P _ p
  | GRecoverWithFn p _ _ => P _ p
  | GBlock p => P _ p
  | GAligned p => P _ p
  | GIndented _ p => P _ p
  | GDelay d => P _ (E d)
  | _ => True
  end.

Lemma heads_ind (P : forall B, gram B -> Prop) :
  forall A (g : gram A),
  (forall B (q : gram B), occurs E q A g -> heads P q -> P B q) ->
  (forall d, lcall E A g d -> P _ (E d)) -> P A g.
Proof.
  intros A g. induction g; intros Hstep Hd; (apply Hstep; [apply oc_refl|]); simpl; auto;
    try (apply IHg; [intros; apply Hstep; auto|intros; apply Hd];
         solve [constructor; auto]).
  - split; [apply IHg1|apply IHg2]; intros.
    + apply Hstep; auto. apply oc_alt_l; auto.
    + apply Hd. apply hd_alt_l; auto.
    + apply Hstep; auto. apply oc_alt_r; auto.
    + apply Hd. apply hd_alt_r; auto.
  - split; [apply IHg|intros v Hv; apply H]; intros.
    + apply Hstep; auto. apply oc_bind_l; auto.
    + apply Hd. apply hd_bind_l; auto.
    + apply Hstep; auto. eapply oc_bind_r; eauto.
    + apply Hd. eapply hd_bind_r; eauto.
  - split; [apply IHg1|intros v Hv; apply IHg2]; intros.
    + apply Hstep; auto. apply oc_seq_l; auto.
    + apply Hd. apply hd_seq_l; auto.
    + apply Hstep; auto. apply oc_seq_r; auto.
    + apply Hd. eapply hd_seq_r; eauto.
  - apply Hd. constructor.
Qed.

Lemma everywhere_children (P : forall B, gram B -> Prop) (Q : forall B, gram B -> Prop) A (g : gram A) :
  (forall B (q : gram B), everywhere E Q q -> P B q) -> everywhere E Q g -> children P g.
Proof.
  intros H Hg. destruct g; simpl; auto; try (apply H; intros ? ? Hq; apply Hg; constructor; auto).
  - split; apply H; intros ? ? Hq; apply Hg; [apply oc_alt_l|apply oc_alt_r]; auto.
  - split; [|intros v]; apply H; intros B' q Hq; apply Hg; [apply oc_bind_l|eapply oc_bind_r; eauto]; auto.
  - split; apply H; intros B' q Hq; apply Hg; [apply oc_seq_l|apply oc_seq_r]; auto.
Qed.

(** ** without recovery *)
Definition tfast (pos : nat) B (q : gram B) : Prop := forall c, conv (fun n => fast E n q s pos c).

Lemma mono_fast A (g : gram A) pos c : mono (fun n => fast E n g s pos c).
Proof. apply fast_monotone. Qed.
Lemma mono_full A (g : gram A) pos c ins rem : mono (fun n => full E n g s pos c ins rem).
Proof. apply full_monotone. Qed.

Lemma sres_fmap_halts {A B} (f : A -> out B) (r : sres T A) :
  (forall o, r = SOk o -> f (ok_val o) <> NoFuel) -> sres_fmap f r <> NoFuel.
Proof.
  destruct r as [o|e]; simpl; intros H; [|discriminate]. unfold ok_fmap.
  specialize (H o eq_refl). destruct (f (ok_val o)); simpl; congruence.
Qed.
Lemma res_fmap_halts {A B} (f : A -> out B) (r : res T A) :
  (forall o, r = ROk o -> f (ok_val o) <> NoFuel) ->
  (forall rc rep, r = RRec rc -> In rep (rc_reps rc) -> f (r_val rep) <> NoFuel) ->
  res_fmap f r <> NoFuel.
Proof.
  destruct r as [o|e|rc]; simpl; intros H K; [|discriminate|].
  - unfold ok_fmap. specialize (H o eq_refl). destruct (f (ok_val o)); simpl; congruence.
  - unfold rec_fmap. assert (mapM (rep_fmap f) (rc_reps rc) <> NoFuel).
    { apply mapM_halts. intros rep Hin. unfold rep_fmap. specialize (K rc rep eq_refl Hin).
      destruct (f (r_val rep)); simpl; congruence. }
    destruct (mapM _ _); simpl; congruence.
Qed.

Lemma many_fast_conv A (p : gram A) : wf p ->
  forall d pos con v c, len - pos <= d -> pos <= len ->
  (forall pos', pos <= pos' <= len -> tfast pos' _ p) ->
  exists k, conv (fun n => many_fast (fast E n p) k con v s pos c).
Proof.
  intros Hwf. induction d as [|d IH]; intros pos con v c Hd Hp H.
  all: destruct (H pos ltac:(lia) c) as [n Hn];
    destruct (fast E n p s pos c) as [r|e|] eqn:Hr; [| |congruence].
  2,4: exists 1, n; simpl; rewrite Hr; discriminate.
  all: pose proof (fast_info _ _ _ _ _ _ Hwf Hp Hr) as Hi; destruct r as [o|e].
  2,4: exists 1, n; simpl; rewrite Hr; simpl; destruct (er_con e); discriminate.
  all: destruct Hi as (I1 & I2 & _); destruct (ok_con o) eqn:Hc;
    [|exists 1, n; simpl; rewrite Hr; simpl; rewrite Hc; discriminate].
  all: symmetry in I2; apply Nat.ltb_lt in I2.
  - lia.
  - destruct (IH (ok_pos o) true (v ++ [ok_val o]) (ok_ctx o)) as [k Hk]; [lia|lia| |].
    { intros pos' Hp'. apply H. lia. }
    exists (S k). cbn [many_fast]. apply (conv_bind _ (fun n r =>
      match r with
      | SOk o => if ok_con o then many_fast (fast E n p) k true (v ++ [ok_val o]) s (ok_pos o) (ok_ctx o)
                 else Raise ManyEmpty
      | SErr e => if er_con e then Ret (SErr e) else Ret (SOk (Ok v pos c (er_exp e) con)) end)).
    + apply mono_fast.
    + apply H; lia.
    + intros a m Hm. assert (a = SOk o).
      { eapply (runs_det E); [exists m; exact Hm|exists n; exact Hr]. }
      subst a. rewrite Hc. exact Hk.
    + intros a. destruct a as [o'|e]; [destruct (ok_con o')|destruct (er_con e)]; try apply mono_const.
      intros n1 n2 Hn'. apply lef_many_fast; auto. intros; apply fast_lef; auto.
Qed.

Ltac mono_tac := intros;
  repeat (first [ apply mono_fast | apply mono_full | apply mono_const
    | match goal with |- mono (fun n => match ?x with _ => _ end) => destruct x end
    | match goal with |- mono (fun n => if ?x then _ else _) => destruct x end
    | apply mono_continue; intros
    | apply mono_bind; [|intros] ]).

Lemma fast_step A (g : gram A) pos :
  halting_node E A g -> wf g -> pos <= len ->
  (forall pos', pos < pos' <= len -> children (tfast pos') g) ->
  heads (tfast pos) g -> tfast pos A g.
Proof.
  intros Hh Hwf Hp Hl Hn c. apply conv_shift.
  destruct g; simpl in *.
  - apply conv_const; discriminate.
  - apply conv_const. unfold purefn_fast. destruct (f tt); simpl; congruence.
  - apply conv_const; discriminate.
  - apply conv_const. unfold eof_fast. destruct (Nat.eqb _ _); discriminate.
  - apply conv_const. unfold satisfy_fast, probe_tok. destruct (nth_error s pos) as [t|]; simpl; [|discriminate].
    specialize (Hh t). destruct (test t) as [[]| |]; simpl; congruence.
  - apply conv_const. unfold sym_fast, probe_sym. destruct (nth_error s pos) as [t|]; simpl; [|discriminate].
    destruct (teq t x); discriminate.
  - apply conv_const. unfold literal_fast. destruct (starts_with _ _ _ _); discriminate.
  - apply conv_const. unfold regexp_fast. destruct (probe_re _ _ _) as [[]|]; discriminate.
  - unfold fmap_fast. apply (conv_bind _ (fun _ r => sres_fmap f r)); auto using mono_fast; [|mono_tac].
    intros r n Hr. apply conv_const. apply sres_fmap_halts. intros o ->.
    apply fast_info in Hr; auto; [|apply Hwf]. eapply Hh. apply Hr.
  - unfold alt_fast. match goal with |- conv (fun n => obind _ (fun x => @?K n x)) =>
      apply (conv_bind _ K) end; [mono_tac|apply Hn| |mono_tac].
    intros [o|e] n Hr; [apply conv_const; discriminate|]. destruct (er_con e); [apply conv_const; discriminate|].
    match goal with |- conv (fun n => obind _ (fun x => @?K n x)) => apply (conv_bind _ K) end;
      [mono_tac|apply Hn| |mono_tac].
    intros rb m _. apply conv_const. destruct (sres_con rb), rb; discriminate.
  - unfold bind_fast. match goal with |- conv (fun n => obind _ (fun x => @?K n x)) =>
      apply (conv_bind _ K) end; [mono_tac|apply Hn| |mono_tac].
    intros [o|e] n Hr; [|apply conv_const; discriminate].
    match goal with |- conv (fun n => obind _ (fun x => @?K n x)) => apply (conv_bind _ K) end;
      [mono_tac| |intros; apply conv_const; discriminate|mono_tac].
    apply fast_info in Hr; auto; [|apply Hwf]. destruct Hr as (I1 & _ & I3).
    destruct (Nat.eq_dec (ok_pos o) pos) as [Heq|Hne].
    + rewrite Heq, slice_nil in *. apply Hn. exact I3.
    + apply Hl. lia.
  - unfold seq_fast. match goal with |- conv (fun n => obind _ (fun x => @?K n x)) =>
      apply (conv_bind _ K) end; [mono_tac|apply Hn| |mono_tac].
    intros [o|e] n Hr; [|apply conv_const; discriminate]. cbv zeta.
    match goal with |- conv (fun n => obind _ (fun x => @?K n x)) => apply (conv_bind _ K) end;
      [mono_tac| | |mono_tac].
    + apply fast_info in Hr; auto; [|apply Hwf]. destruct Hr as (I1 & _ & I3).
      destruct (Nat.eq_dec (ok_pos o) pos) as [Heq|Hne].
      * rewrite Heq, slice_nil in *. eapply Hn. exact I3.
      * apply Hl. lia.
    + intros rb m _. apply conv_const. destruct rb; discriminate.
  - unfold maybe_fast. match goal with |- conv (fun n => obind _ (fun x => @?K n x)) =>
      apply (conv_bind _ K) end; [mono_tac|apply Hn| |mono_tac].
    intros [o|e] n Hr; [apply conv_const; discriminate|]. destruct (er_con e); apply conv_const; discriminate.
  - destruct (many_fast_conv _ g (proj2 Hwf) len pos false [] c) as [k [n Hk]]; [lia|auto| |].
    { intros pos' Hp'. destruct (Nat.eq_dec pos' pos) as [->|Hne]; [apply Hn|apply Hl; lia]. }
    exists (n + k).
    destruct (lef_many_fast (fast E n g) (fast E (n + k) g) k (n + k) s) with (con := false) (v := @nil A) (pos := pos) (c := c) as [L|L];
      [intros; apply fast_lef; lia|lia|congruence|congruence].
  - unfold attempt_fast. match goal with |- conv (fun n => obind _ (fun x => @?K n x)) =>
      apply (conv_bind _ K) end; [mono_tac|apply Hn| |mono_tac].
    intros [o|e] n Hr; apply conv_const; discriminate.
  - unfold label_fast. match goal with |- conv (fun n => obind _ (fun x => @?K n x)) =>
      apply (conv_bind _ K) end; [mono_tac|apply Hn| |mono_tac].
    intros; apply conv_const; discriminate.
  - apply Hn.
  - apply Hn.
  - apply Hn.
  - unfold block_fast. cbv zeta. match goal with |- conv (fun n => obind _ (fun x => @?K n x)) =>
      apply (conv_bind _ K) end; [mono_tac|apply Hn| |mono_tac].
    intros; apply conv_const; discriminate.
  - unfold aligned_fast. cbv zeta. destruct (Z.eqb _ _); [apply Hn|apply conv_const; discriminate].
  - unfold indented_fast. cbv zeta. destruct (Z.eqb _ _); [|apply conv_const; discriminate].
    match goal with |- conv (fun n => obind _ (fun x => @?K n x)) =>
      apply (conv_bind _ K) end; [mono_tac|apply Hn| |mono_tac].
    intros; apply conv_const; discriminate.
  - apply Hn.
  - apply conv_const; discriminate.
Qed.

(** ** with recovery *)
Section Full.
Variable ins : Z.
Definition tfull (pos : nat) (rem : option Z) B (q : gram B) : Prop :=
  forall c, conv (fun n => full E n q s pos c ins rem).

Lemma many_full_conv A (p : gram A) : wf p ->
  forall d pos con v c, len - pos <= d -> pos <= len ->
  (forall pos', pos <= pos' <= len -> tfull pos' None _ p) ->
  exists k, conv (fun n => many_full (full E n p) k con v s pos c ins).
Proof.
  intros Hwf. induction d as [|d IH]; intros pos con v c Hd Hp H.
  all: destruct (H pos ltac:(lia) c) as [n Hn];
    destruct (full E n p s pos c ins None) as [r|e|] eqn:Hr; [| |congruence].
  2,4: exists 1, n; simpl; rewrite Hr; discriminate.
  all: pose proof (full_info _ _ _ _ _ _ _ _ Hwf Hp Hr) as Hi; destruct r as [o|e|rc].
  2,5: exists 1, n; simpl; rewrite Hr; simpl; destruct (er_con e); discriminate.
  - destruct Hi as (I1 & I2 & _); destruct (ok_con o) eqn:Hc;
      [symmetry in I2; apply Nat.ltb_lt in I2; lia|].
    exists 1, n; simpl; rewrite Hr; simpl; rewrite Hc; discriminate.
  - destruct rc as [[|rep l] mn ll x cc].
    + exists 1, n. simpl. rewrite Hr. discriminate.
    + destruct (Hi rep (or_introl eq_refl)) as (I1 & I2 & _). specialize (I2 eq_refl). lia.
  - destruct Hi as (I1 & I2 & _); destruct (ok_con o) eqn:Hc;
      [|exists 1, n; simpl; rewrite Hr; simpl; rewrite Hc; discriminate].
    symmetry in I2; apply Nat.ltb_lt in I2.
    destruct (IH (ok_pos o) true (v ++ [ok_val o]) (ok_ctx o)) as [k [m Hk]]; [lia|lia| |].
    { intros pos' Hp'. apply H. lia. }
    exists (S k), (n + m). cbn [many_full].
    assert (K : full E (n + m) p s pos c ins None = Ret (ROk o)) by (apply (full_mono E n); [exact Hr|discriminate|lia]).
    rewrite K. cbn [obind]. rewrite Hc.
    destruct (lef_many_full (full E m p) (full E (n + m) p) k k s) with (con := true)
      (v := v ++ [ok_val o]) (pos := ok_pos o) (c := ok_ctx o) (ins := ins) as [L|L];
      [intros; apply full_lef; lia|lia|congruence|congruence].
  - assert (Hk : exists k, forall rep, In rep (rc_reps rc) ->
       conv (fun n => many_full (full E n p) k false [] s (r_pos rep) (r_ctx rep) ins)).
    { assert (G : forall rep, In rep (rc_reps rc) -> exists k,
        conv (fun n => many_full (full E n p) k false [] s (r_pos rep) (r_ctx rep) ins)).
      { intros rep Hin. destruct (Hi rep Hin) as (I1 & I2 & _). specialize (I2 eq_refl).
        apply IH; [lia|lia|]. intros pos' Hp'. apply H. lia. }
      clear Hi Hr. induction (rc_reps rc) as [|a l IHl]; [exists 0; intros ? []|].
      destruct IHl as [k1 H1]; [intros; apply G; right; auto|].
      destruct (G a (or_introl eq_refl)) as [k2 H2]. exists (k1 + k2).
      assert (Hle : forall k k' (rep : repair T A), k <= k' ->
        conv (fun n => many_full (full E n p) k false [] s (r_pos rep) (r_ctx rep) ins) ->
        conv (fun n => many_full (full E n p) k' false [] s (r_pos rep) (r_ctx rep) ins)).
      { intros k k' rep Hkk [m Hm]. exists m.
        destruct (lef_many_full (full E m p) (full E m p) k k' s) with (con := false)
          (v := @nil A) (pos := r_pos rep) (c := r_ctx rep) (ins := ins) as [L|L];
          [intros; apply full_lef; lia|lia|congruence|congruence]. }
      intros rep [<-|Hin]; [apply (Hle k2); [lia|auto]|apply (Hle k1); [lia|auto]]. }
    destruct Hk as [k Hk].
    destruct (conv_continue rc ins (fun n (_ : A) p' c' (_ : Z) => many_full (full E n p) k false [] s p' c' ins)
      (fun a b => v ++ a :: b)) as [m Hm].
    { intros v0 p0 c0 z n1 n2 Hnn. apply lef_many_full; auto. intros; apply full_lef; auto. }
    { exact Hk. }
    exists (S k), (n + m). cbn [many_full].
    assert (K : full E (n + m) p s pos c ins None = Ret (RRec rc)) by (apply (full_mono E n); [exact Hr|discriminate|lia]).
    rewrite K. cbn [obind].
    destruct (lef_continue_parse rc ins
      (fun (_ : A) p' c' (_ : Z) => many_full (full E m p) k false [] s p' c' ins)
      (fun (_ : A) p' c' (_ : Z) => many_full (full E (n + m) p) k false [] s p' c' ins)
      (fun a b => v ++ a :: b)) as [L|L].
    { intros. apply lef_many_full; auto. intros; apply full_lef; lia. }
    + congruence.
    + congruence.
Qed.

(** [below pos' rem' pos rem]: state (pos', rem') comes after (pos, rem) *)
Variable okrem : option Z -> Prop.
Variable below : nat -> option Z -> nat -> option Z -> Prop.
Hypothesis okrem_none : okrem None.
Hypothesis okrem_ins : okrem (Some ins).
Hypothesis below_none : forall pos z, below pos None pos (Some z).
Hypothesis below_later : forall pos rem pos' rem', pos < pos' <= len -> below pos' rem' pos rem.
Hypothesis below_rep : forall A (g : gram A) pos c rem n rc rep, wf g -> pos <= len -> okrem rem ->
  full E n g s pos c ins rem = Ret (RRec rc) -> In rep (rc_reps rc) ->
  okrem (Some (r_ins rep)) /\ below (r_pos rep) (Some (r_ins rep)) pos rem.

Ltac step := match goal with |- conv (fun n => obind _ (fun x => @?K n x)) =>
      apply (conv_bind _ K) end; [mono_tac| | |mono_tac].
Ltac cst := apply conv_const; discriminate.

Lemma skip_halts {X} (probe : nat -> out (option X)) k cur :
  (forall i, probe i <> NoFuel) -> skip_loop probe k cur <> NoFuel.
Proof.
  intros H. revert cur. induction k as [|k IH]; intros cur; simpl; [discriminate|].
  specialize (H cur). destruct (probe cur) as [[x|]| |]; simpl; congruence.
Qed.
Lemma probe_tok_halts test i : (forall t : T, halts (test t)) -> probe_tok test s i <> NoFuel.
Proof.
  intros Hh. unfold probe_tok. destruct (nth_error s i) as [t|]; simpl; [|discriminate].
  specialize (Hh t). destruct (test t); simpl; congruence.
Qed.

Lemma full_step A (g : gram A) pos rem :
  halting_node E A g -> wf g -> pos <= len -> okrem rem ->
  (forall pos' rem', pos <= pos' <= len -> okrem rem' -> below pos' rem' pos rem ->
     children (tfull pos' rem') g) ->
  heads (tfast pos) g ->
  heads (tfull pos rem) g -> tfull pos rem A g.
Proof.
  intros Hh Hwf Hp Hrem Hl Hfast Hn c. apply conv_shift.
  assert (Hnone : match rem with None => heads (tfull pos None) g | Some _ => children (tfull pos None) g end).
  { destruct rem; [apply Hl; auto|exact Hn]. }
  destruct g; simpl in *.
  - cst.
  - apply conv_const. unfold purefn_full. destruct (f tt); simpl; congruence.
  - cst.
  - apply conv_const. unfold eof_full. destruct (Nat.eqb _ _), rem; discriminate.
  - apply conv_const. unfold satisfy_full.
    assert (Hpr : forall i, probe_tok test s i <> NoFuel) by (intros; apply probe_tok_halts; auto).
    pose proof (Hpr pos). destruct (probe_tok test s pos) as [[t|]| |]; simpl; try congruence.
    destruct rem as [z|]; [|discriminate]. unfold skip_search.
    pose proof (skip_halts (probe_tok test s) (len - S pos) (S pos) Hpr).
    destruct (skip_loop _ _ _) as [[[cur t]|]| |]; simpl; congruence.
  - apply conv_const. unfold sym_full.
    assert (Hpr : forall i, probe_sym teq x s i <> NoFuel).
    { intros i. unfold probe_sym. destruct (nth_error s i); discriminate. }
    pose proof (Hpr pos). destruct (probe_sym teq x s pos) as [[t|]| |]; simpl; try congruence.
    destruct rem as [z|]; [|discriminate]. unfold skip_search.
    pose proof (skip_halts (probe_sym teq x s) (len - S pos) (S pos) Hpr).
    destruct (skip_loop _ _ _) as [[[cur t]|]| |]; simpl; congruence.
  - apply conv_const. unfold literal_full. destruct (starts_with _ _ _ _); [discriminate|].
    destruct rem as [z|]; [|discriminate]. unfold skip_search.
    assert (Hpr : forall i, probe_lit teq x s i <> NoFuel) by (intros; discriminate).
    pose proof (skip_halts (probe_lit teq x s) (len - S pos) (S pos) Hpr).
    destruct (skip_loop _ _ _) as [[[cur t]|]| |]; simpl; congruence.
  - apply conv_const. unfold regexp_full. destruct (probe_re _ _ _) as [[]|]; [discriminate|].
    destruct rem as [z|]; [|discriminate]. unfold skip_search.
    assert (Hpr : forall i, Ret (probe_re m s i) <> NoFuel) by (intros; discriminate).
    pose proof (skip_halts (fun i => Ret (probe_re m s i)) (len - S pos) (S pos) Hpr).
    destruct (skip_loop _ _ _) as [[[cur [e v]]|]| |]; simpl; congruence.
  - unfold fmap_full. step; [apply Hn|].
    intros r n Hr. apply conv_const. apply full_info in Hr; auto; [|apply Hwf]. apply res_fmap_halts.
    + intros o ->. eapply Hh. apply Hr.
    + intros rc rep -> Hin. destruct (Hr rep Hin) as (_ & _ & (w & Hw) & _). eapply Hh. eauto.
  - assert (Hn2 : tfull pos None _ g1 /\ tfull pos None _ g2) by (destruct rem; exact Hnone).
    assert (HB : forall xa la, conv (fun n =>
       rb <- full E n g2 s pos c ins None ;;
          if res_con rb then Ret rb
          else
            let expected := Append xa (res_exp rb) in
            match rb with
            | ROk ob => Ret (ROk (ok_set_exp expected ob))
            | _ => alt_recover (full E n g1) (full E n g2) la expected s pos c ins rem
            end)).
    { assert (HR : forall la x, mono (fun n => alt_recover (full E n g1) (full E n g2) la x s pos c ins rem)).
      { intros. unfold alt_recover. mono_tac. }
      assert (HC : forall la x, conv (fun n => alt_recover (full E n g1) (full E n g2) la x s pos c ins rem)).
      { intros. unfold alt_recover. destruct rem as [z|]; [|cst]. step; [apply Hn|].
        intros rra _ _. step; [apply Hn|]. intros rrb _ _. apply conv_const.
        destruct rra, rrb; discriminate. }
      intros xa la. match goal with |- conv (fun n => obind _ (fun x => @?K n x)) => apply (conv_bind _ K) end.
      - mono_tac.
      - apply Hn2.
      - intros rb m _. destruct (res_con rb); [cst|]. cbv zeta. destruct rb; [cst| |]; apply HC.
      - intros rb. destruct (res_con rb); [mono_tac|]. cbv zeta. destruct rb; [mono_tac| |]; apply HR. }
    unfold alt_full. match goal with |- conv (fun n => obind _ (fun x => @?K n x)) => apply (conv_bind _ K) end.
    mono_tac. apply Hn2.
    intros ra n Hr. destruct ra as [o|[la xa ca]|[reps mn la xa ca]]; [cst| |]; (destruct ca; [cst|]); apply HB.
    intros a. destruct a as [o|[la xa ca]|[reps mn la xa ca]]; try (destruct ca); try apply mono_const.
    all: apply mono_bind; [mono_tac|]; intros rb; destruct (res_con rb); [mono_tac|]; cbv zeta;
      destruct rb; [mono_tac| |]; unfold alt_recover; mono_tac.
  - unfold bind_full. step; [apply Hn|].
    intros [o|e|rc] n Hr; [|cst|].
    + apply full_info in Hr; auto; [|apply Hwf]. destruct Hr as (I1 & I2 & I3).
      destruct (ok_con o); symmetry in I2.
      * apply Nat.ltb_lt in I2. step; [|intros; cst]. apply Hl; auto; try lia. apply below_later; lia.
      * apply Nat.ltb_ge in I2. step; [|intros; cst]. replace (ok_pos o) with pos in * by lia.
        rewrite slice_nil in I3. apply Hn. exact I3.
    + pose proof (full_info _ _ _ _ _ _ _ _ (proj1 (proj2 Hwf)) Hp Hr) as Hi.
      apply conv_continue; [mono_tac|]. intros rep Hin.
      destruct (below_rep _ _ _ _ _ _ _ _ (proj1 (proj2 Hwf)) Hp Hrem Hr Hin) as [B1 B2].
      apply Hl; auto. apply (Hi rep Hin).
  - unfold seq_full. step; [apply Hn|].
    intros [o|e|rc] n Hr; [|cst|].
    + apply full_info in Hr; auto; [|apply Hwf]. destruct Hr as (I1 & I2 & I3). cbv zeta. step.
      * destruct (ok_con o); symmetry in I2.
        -- apply Nat.ltb_lt in I2. apply Hl; auto; try lia. apply below_later; lia.
        -- apply Nat.ltb_ge in I2. replace (ok_pos o) with pos in * by lia.
           rewrite slice_nil in I3. eapply Hn. exact I3.
      * intros rb m _. apply conv_const.
        assert (K : res_fmap (fun vb => Ret (merge (ok_val o) vb)) rb <> NoFuel)
          by (apply res_fmap_halts; intros; discriminate).
        destruct (res_fmap _ rb); simpl; congruence.
    + pose proof (full_info _ _ _ _ _ _ _ _ (proj1 (proj2 Hwf)) Hp Hr) as Hi.
      apply conv_continue; [mono_tac|]. intros rep Hin.
      destruct (below_rep _ _ _ _ _ _ _ _ (proj1 (proj2 Hwf)) Hp Hrem Hr Hin) as [B1 B2].
      apply Hl; auto. apply (Hi rep Hin).
  - assert (Hn2 : tfull pos None _ g) by (destruct rem; exact Hnone).
    unfold maybe_full. step; [apply Hn2|]. intros r n Hr. apply conv_const.
    assert (K : res_fmap (fun v => Ret (Some v)) r <> NoFuel)
          by (apply res_fmap_halts; intros; discriminate).
    destruct r; auto; destruct (res_con _); auto; discriminate.
  - assert (Hn2 : tfull pos None _ g) by (destruct rem; exact Hnone).
    destruct (many_full_conv _ g (proj2 Hwf) len pos false [] c) as [k [n Hk]]; [lia|auto| |].
    { intros pos' Hp'. destruct (Nat.eq_dec pos' pos) as [->|Hne]; [apply Hn2|].
      apply Hl; [lia|auto|]. apply below_later; lia. }
    exists (n + k).
    destruct (lef_many_full (full E n g) (full E (n + k) g) k (n + k) s) with (con := false)
      (v := @nil A) (pos := pos) (c := c) (ins := ins) as [L|L];
      [intros; apply full_lef; lia|lia|congruence|congruence].
  - unfold attempt_full. destruct rem as [z|]; [apply Hn|]. step; [apply Hfast|].
    intros [o|e] n _; cst.
  - unfold label_full. step; [apply Hn|]. intros; cst.
  - unfold recover_full. step; [apply Hn|]. intros r _ _; destruct r; cst.
  - unfold recover_with_full. destruct rem as [z|]; [|apply Hn]. step; [apply Hn|].
    intros r _ _. apply conv_const. destruct r; try discriminate;
      (destruct (res_con _); [discriminate|]); destruct (Z.eqb _ _); discriminate.
  - unfold recover_with_full. destruct rem as [z|]; [|apply Hn]. step; [apply Hn|].
    intros r _ _. apply conv_const. specialize (Hh s pos). unfold halts in Hh.
    destruct r; try discriminate;
      (destruct (res_con _); [discriminate|]); destruct (Z.eqb _ _); try discriminate;
      destruct (fn s pos); simpl; congruence.
  - unfold block_full. cbv zeta. step; [apply Hn|]. intros; cst.
  - unfold aligned_full. cbv zeta. destruct (Z.eqb _ _); [apply Hn|cst].
  - unfold indented_full. cbv zeta. destruct (Z.eqb _ _); [|cst]. step; [apply Hn|]. intros; cst.
  - apply Hn.
  - cst.
Qed.
End Full.
End Term.
