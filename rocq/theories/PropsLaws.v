(** C14 (associativity), C16, C17, C18: algebraic laws of the combinators, in
    both modes.  [same], [same_ok] and [same_plain] are in LawSpec.v. *)
From Verif Require Export LawLift Examples.

Section FunLaws2.
Context {T : Type}.
Lemma fmap_seq_fast {A B C D} (p : pfast T A) (q : pfast T B) (merge : A -> B -> C) (h : C -> D) s pos c :
  fmap_fast (seq_fast p q merge) (fun v => Ret (h v)) s pos c =
  seq_fast p q (fun x y => h (merge x y)) s pos c.
Proof.
  unfold fmap_fast, seq_fast. destruct (p s pos c) as [[o|e]|e|]; simpl; auto.
  destruct (q s (ok_pos o) (ok_ctx o)) as [[ob|e]|e|]; simpl; auto.
  destruct ob as [v pp cc ee []]; reflexivity.
Qed.
Lemma fmap_seq_full {A B C D} (p : pfull T A) (q : pfull T B) (merge : A -> B -> C) (h : C -> D) s pos c ins rem :
  fmap_full (seq_full p q merge) (fun v => Ret (h v)) s pos c ins rem =
  seq_full p q (fun x y => h (merge x y)) s pos c ins rem.
Proof.
  unfold fmap_full, seq_full. destruct (p s pos c ins rem) as [[o|e|rc]|e|]; simpl; auto.
  - destruct (q s (ok_pos o) (ok_ctx o) ins _) as [[ob|e|rb]|e|]; simpl; auto.
    + destruct ob as [v pp cc ee []]; reflexivity.
    + rewrite !rec_fmap_pure. cbn [obind res_prepend rec_prepend res_fmap].
      rewrite rec_fmap_pure. simpl. do 2 f_equal. unfold rec_prepend; simpl. rewrite !map_map. reflexivity.
  - unfold continue_parse.
    assert (K : flat_mapM (cont_one ins (fun (_ : A) p c r => q s p c ins (Some r)) (fun x y => h (merge x y))) (rc_reps rc)
       = omap (map (fun r => Repair (r_cost r) (r_prio r) (r_ins r) (r_ops r)
           (h (r_val r)) (r_pos r) (r_ctx r) (r_exp r) (r_con r)))
          (flat_mapM (cont_one ins (fun (_ : A) p c r => q s p c ins (Some r)) merge) (rc_reps rc))).
    { rewrite <- flat_mapM_omap. apply flat_mapM_ext_in. intros r _. unfold cont_one, omap.
      rewrite obind_assoc. apply obind_ext. intros [o|e|rb]; simpl; auto. rewrite map_map. reflexivity. }
    rewrite K. clear K. unfold omap.
    destruct (flat_mapM (cont_one ins (fun (_ : A) p c r => q s p c ins (Some r)) merge) (rc_reps rc)) as [reps|e|]; cbn [obind]; auto. cbn [res_fmap].
    rewrite rec_fmap_pure. reflexivity.
Qed.
End FunLaws2.

Section Laws.
Context {T : Type} {V : nat -> Type}.
Variable E : env T V.
Notation gram := (gram T V).

(** ** C14: choice is associative *)
Theorem C14_alt_assoc A (p q r : gram A) : same E (GAlt (GAlt p q) r) (GAlt p (GAlt q r)).
Proof.
  pose proof (bf_self E p) as p1. pose proof (bF_self E p) as p2.
  pose proof (bf_self E q) as q1. pose proof (bF_self E q) as q2.
  pose proof (bf_self E r) as r1. pose proof (bF_self E r) as r2.
  eapply same_laws.
  - apply bf_alt; [apply bf_alt; [exact p1|exact q1]|exact r1].
  - apply bF_alt; [apply bF_alt; [exact p2|exact q2]|exact r2].
  - apply bf_alt; [exact p1|apply bf_alt; [exact q1|exact r1]].
  - apply bF_alt; [exact p2|apply bF_alt; [exact q2|exact r2]].
  - intros n s pos c _. apply outeq_eq, alt_fast_assoc.
  - intros n s pos c ins rem _. apply outeq_eq, alt_full_assoc; intros x Hx; eapply full_prios; eauto.
Qed.

(** ** C16: maybe *)
Theorem C16_maybe_is_choice A (p : gram A) :
  same E (GMaybe p) (GAlt (GFmap p (fun v => Ret (Some v))) (GPure None)).
Proof.
  pose proof (bf_self E p) as p1. pose proof (bF_self E p) as p2.
  eapply same_laws.
  - apply bf_maybe.
  - apply bF_maybe.
  - apply bf_alt; [apply bf_fmap; exact p1|apply bf_pure].
  - apply bF_alt; [apply bF_fmap; exact p2|apply bF_pure].
  - intros n s pos c _. apply outeq_eq, maybe_fast_alt.
  - intros n s pos c ins rem _. apply outeq_eq, maybe_full_alt.
Qed.

(** ** C17: monad laws *)
Theorem C17_left_unit A B (x : A) (f : A -> gram B) : same E (GBind (GPure x) f) (f x).
Proof.
  eapply same_laws.
  - apply (bf_bind E (GPure x) f (fun _ => pure_fast x) (fun n v => fast E n (f v)) 0); [apply bf_pure|intros; apply lf; lia..].
  - apply (bF_bind E (GPure x) f (fun _ => pure_full x) (fun n v => full E n (f v)) 0); [apply bF_pure|intros; apply lF; lia..].
  - apply bf_self.
  - apply bF_self.
  - intros n s pos c _. apply outeq_eq. exact (bind_fast_pure_l x (fun v => fast E n (f v)) s pos c).
  - intros n s pos c ins rem _. apply outeq_eq. exact (bind_full_pure_l x (fun v => full E n (f v)) s pos c ins rem).
Qed.
Theorem C17_right_unit A (p : gram A) : same E (GBind p (fun v => GPure v)) p.
Proof.
  eapply same_laws.
  - apply (bf_bind E p (fun v => GPure v) (fun n => fast E n p) (fun _ v => pure_fast v) 1); [apply bf_self| |].
    + intros v n. apply bf_pure.
    + intros v n [|m] Hm; [lia|apply lefast_refl].
  - apply (bF_bind E p (fun v => GPure v) (fun n => full E n p) (fun _ v => pure_full v) 1); [apply bF_self| |].
    + intros v n. apply bF_pure.
    + intros v n [|m] Hm; [lia|apply lefull_refl].
  - apply bf_self.
  - apply bF_self.
  - intros n s pos c _. apply outeq_eq, bind_fast_pure_r.
  - intros n s pos c ins rem _. apply outeq_eq, bind_full_pure_r.
Qed.

Lemma assoc_between A B C (p : gram A) (f : A -> gram B) (g : B -> gram C) :
  (between_fast E (GBind (GBind p f) g)
     (fun n => bind_fast (bind_fast (fast E n p) (fun v => fast E n (f v))) (fun v => fast E n (g v))) /\
   between_full E (GBind (GBind p f) g)
     (fun n => bind_full (bind_full (full E n p) (fun v => full E n (f v))) (fun v => full E n (g v)))) /\
  (between_fast E (GBind p (fun x => GBind (f x) g))
     (fun n => bind_fast (fast E n p) (fun x => bind_fast (fast E n (f x)) (fun v => fast E n (g v)))) /\
   between_full E (GBind p (fun x => GBind (f x) g))
     (fun n => bind_full (full E n p) (fun x => bind_full (full E n (f x)) (fun v => full E n (g v))))).
Proof.
  repeat split.
  1,2: apply (bf_bind E (GBind p f) g (fun n => bind_fast (fast E n p) (fun v => fast E n (f v))) (fun n v => fast E n (g v)) 0);
    [apply (bf_bind E p f (fun n => fast E n p) (fun n v => fast E n (f v)) 0); [apply bf_self|intros; apply lf; lia..]|intros; apply lf; lia..].
  1,2: apply (bF_bind E (GBind p f) g (fun n => bind_full (full E n p) (fun v => full E n (f v))) (fun n v => full E n (g v)) 0);
    [apply (bF_bind E p f (fun n => full E n p) (fun n v => full E n (f v)) 0); [apply bF_self|intros; apply lF; lia..]|intros; apply lF; lia..].
  1,2: apply (bf_bind E p _ (fun n => fast E n p) (fun n x => bind_fast (fast E n (f x)) (fun v => fast E n (g v))) 1);
    [apply bf_self
    |intros x [|n]; [apply nofuel_fast|]; apply lefast_bind; [apply lf; lia|intros; apply lf; lia]
    |intros x n [|m] Hm; [lia|]; apply lefast_bind; [apply lf; lia|intros; apply lf; lia]].
  1,2: apply (bF_bind E p _ (fun n => full E n p) (fun n x => bind_full (full E n (f x)) (fun v => full E n (g v))) 1);
    [apply bF_self
    |intros x [|n]; [apply nofuel_full|]; apply lefull_bind; [apply lF; lia|intros; apply lF; lia]
    |intros x n [|m] Hm; [lia|]; apply lefull_bind; [apply lF; lia|intros; apply lF; lia]].
Qed.

(** without recovery: for all parsers, exceptions included *)
Theorem C17_assoc_plain A B C (p : gram A) (f : A -> gram B) (g : B -> gram C) :
  same_plain E (GBind (GBind p f) g) (GBind p (fun x => GBind (f x) g)).
Proof.
  intros s pos c Hp. destruct (assoc_between A B C p f g) as [[H1 _] [H2 _]].
  eapply agree_trans; [apply (agree_between_fast _ _ _ _ s pos c H1)|].
  eapply agree_trans; [|apply agree_sym; apply (agree_between_fast _ _ _ _ s pos c H2)].
  apply agree_outeq. intros n. apply outeq_eq.
  exact (bind_fast_assoc (fast E n p) (fun v => fast E n (f v)) (fun v => fast E n (g v)) s pos c).
Qed.
(** with recovery: whenever one side returns, so does the other, with the same
    result *)
Theorem C17_assoc A B C (p : gram A) (f : A -> gram B) (g : B -> gram C) :
  wf_env E -> wf p -> (forall v, wf (f v)) -> (forall v, wf (g v)) ->
  same_ok E (GBind (GBind p f) g) (GBind p (fun x => GBind (f x) g)).
Proof.
  intros HE Hp Hf Hg. destruct (assoc_between A B C p f g) as [[H1 H2] [K1 K2]].
  eapply same_laws; [exact H1|exact H2|exact K1|exact K2| |].
  - intros n s pos c _. apply outeq_eq.
    exact (bind_fast_assoc (fast E n p) (fun v => fast E n (f v)) (fun v => fast E n (g v)) s pos c).
  - intros n s pos c ins rem Hpos. split; [|intros []]. intros r.
    apply (bind_full_assoc s (full E n p) (fun v => full E n (f v)) (fun v => full E n (g v))); auto.
    + intros v pos' c' ins' rem' o Hpos' H. apply full_pos in H; auto.
    + intros v pos' c' ins' rem' o Hpos' H. apply full_pos in H; auto.
    + intros pos' c' ins' rem' rc Hpos' H rep Hrep. apply full_pos in H; auto. apply H in Hrep. lia.
Qed.

(** ** C18: fmap and sequencing *)
Theorem C18_fmap_id A (p : gram A) : same E (GFmap p (fun v => Ret v)) p.
Proof.
  eapply same_laws.
  - apply bf_fmap, bf_self.
  - apply bF_fmap, bF_self.
  - apply bf_self.
  - apply bF_self.
  - intros n s pos c _. apply outeq_eq. exact (fmap_fast_id (fast E n p) s pos c).
  - intros n s pos c ins rem _. apply outeq_eq. exact (fmap_full_id (full E n p) s pos c ins rem).
Qed.
Theorem C18_fmap_compose_plain A B C (p : gram A) (f : A -> out B) (g : B -> out C) :
  same_plain E (GFmap (GFmap p f) g) (GFmap p (fun x => y <- f x ;; g y)).
Proof.
  intros s pos c _.
  eapply agree_trans; [apply agree_between_fast; apply bf_fmap, bf_fmap, bf_self|].
  eapply agree_trans; [|apply agree_sym, agree_between_fast; apply bf_fmap, bf_self].
  apply agree_outeq. intros n. apply outeq_eq. apply fmap_fast_2.
Qed.
Theorem C18_fmap_compose A B C (p : gram A) (f : A -> out B) (g : B -> out C) :
  same_ok E (GFmap (GFmap p f) g) (GFmap p (fun x => y <- f x ;; g y)).
Proof.
  eapply same_laws.
  - apply bf_fmap, bf_fmap, bf_self.
  - apply bF_fmap, bF_fmap, bF_self.
  - apply bf_fmap, bf_self.
  - apply bF_fmap, bF_self.
  - intros n s pos c _. apply outeq_eq. exact (fmap_fast_2 (fast E n p) f g s pos c).
  - intros n s pos c ins rem _. split; [|intros []]. intros r. apply fmap_full_2.
Qed.
(** p + q, p << q, p >> q and the tuple combinators are one bind and one fmap *)
Theorem C18_seq_is_bind A B C (p : gram A) (q : gram B) (merge : A -> B -> C) :
  same E (GSeq p q merge) (GBind p (fun x => GFmap q (fun y => Ret (merge x y)))).
Proof.
  eapply same_laws.
  - apply bf_seq; apply bf_self.
  - apply bF_seq; apply bF_self.
  - apply (bf_bind E p _ (fun n => fast E n p) (fun n x => fmap_fast (fast E n q) (fun y => Ret (merge x y))) 1);
      [apply bf_self| |].
    + intros v [|n]; [apply nofuel_fast|]. apply lefast_fmap, lf; lia.
    + intros v n [|m] Hm; [lia|]. apply lefast_fmap, lf; lia.
  - apply (bF_bind E p _ (fun n => full E n p) (fun n x => fmap_full (full E n q) (fun y => Ret (merge x y))) 1);
      [apply bF_self| |].
    + intros v [|n]; [apply nofuel_full|]. apply lefull_fmap, lF; lia.
    + intros v n [|m] Hm; [lia|]. apply lefull_fmap, lF; lia.
  - intros n s pos c _. apply outeq_eq. apply seq_fast_bind.
  - intros n s pos c ins rem _. apply outeq_eq. apply seq_full_bind.
Qed.
Lemma seq_merge A B C D (p : gram A) (q : gram B) (merge : A -> B -> C) (h : C -> D) :
  same E (GSeq p q (fun x y => h (merge x y))) (GFmap (GSeq p q merge) (fun v => Ret (h v))).
Proof.
  eapply same_laws.
  - apply bf_seq; apply bf_self.
  - apply bF_seq; apply bF_self.
  - apply bf_fmap, bf_seq; apply bf_self.
  - apply bF_fmap, bF_seq; apply bF_self.
  - intros n s pos c _. apply outeq_eq. symmetry. apply fmap_seq_fast.
  - intros n s pos c ins rem _. apply outeq_eq. symmetry. apply fmap_seq_full.
Qed.
Theorem C18_projections A B (p : gram A) (q : gram B) :
  same E (seql p q) (GFmap (seq p q) (fun v => Ret (fst v))) /\
  same E (seqr p q) (GFmap (seq p q) (fun v => Ret (snd v))).
Proof.
  split.
  - exact (seq_merge A B _ _ p q (fun l r => (l, r)) fst).
  - exact (seq_merge A B _ _ p q (fun l r => (l, r)) snd).
Qed.
End Laws.
Print Assumptions C14_alt_assoc.
Print Assumptions C16_maybe_is_choice.
Print Assumptions C17_left_unit.
Print Assumptions C17_right_unit.
Print Assumptions C17_assoc_plain.
Print Assumptions C17_assoc.
Print Assumptions C18_fmap_id.
Print Assumptions C18_fmap_compose_plain.
Print Assumptions C18_fmap_compose.
Print Assumptions C18_seq_is_bind.
Print Assumptions C18_projections.

(** ** Concrete runs, with and without recovery, on both sides of the laws *)
Definition law_c : ctx char := init_ctx scannerless_get_loc.
(** number of repairs offered, or None *)
Definition law_reps {A} (r : out (res char A)) : option nat :=
  match r with Ret (RRec rc) => Some (List.length (rc_reps rc)) | _ => None end.
Definition law_rec {A} (g : ex_gram A) (s : string) : out (res char A) :=
  full ex_E 60 g (ex_str s) 0 law_c 2 (Some 2%Z).
Definition law_ab : ex_gram (char * char) := seq (ex_sym "a") (ex_sym "b").

Example C14_assoc_case :
  law_reps (law_rec (GAlt (GAlt (ex_sym "a") (ex_sym "b")) (GRecover (ex_sym "c"))) "xab") = Some 4 /\
  law_rec (GAlt (GAlt (ex_sym "a") (ex_sym "b")) (GRecover (ex_sym "c"))) "xab" =
  law_rec (GAlt (ex_sym "a") (GAlt (ex_sym "b") (GRecover (ex_sym "c")))) "xab".
Proof. vm_compute. auto. Qed.
Example C16_case :
  law_reps (law_rec (GMaybe law_ab) "axb") = Some 2 /\
  law_rec (GMaybe law_ab) "axb" =
  law_rec (GAlt (GFmap law_ab (fun v => Ret (Some v))) (GPure None)) "axb".
Proof. vm_compute. auto. Qed.
Definition law_f (x : char) : ex_gram char := ex_sym "b".
Definition law_g (x : char) : ex_gram char := GAlt (ex_sym "c") (GFmap ex_digit (fun z => Ret (Z.to_N z))).
Example C17_case :
  wf_env ex_E /\ wf (ex_sym "a") /\ (forall v, wf (law_f v)) /\ (forall v, wf (law_g v)) /\
  law_reps (law_rec (GBind (GBind (ex_sym "a") law_f) law_g) "xbc") = Some 2 /\
  law_rec (GBind (GBind (ex_sym "a") law_f) law_g) "xbc" =
  law_rec (GBind (ex_sym "a") (fun x => GBind (law_f x) law_g)) "xbc" /\
  law_rec (GBind law_ab (fun v => GPure v)) "xb" = law_rec law_ab "xb" /\
  law_rec (GBind (GPure 1%N) law_g) "x" = law_rec (law_g 1%N) "x".
Proof.
  split; [exact ex_wf_E|]. split; [solve_gall|]. split; [intros v; solve_gall|]. split; [intros v; solve_gall|].
  vm_compute. auto.
Qed.
Example C18_case :
  law_reps (law_rec law_ab "xb") = Some 2 /\
  law_rec law_ab "xb" =
  law_rec (GBind (ex_sym "a") (fun x => GFmap (ex_sym "b") (fun y => Ret (x, y)))) "xb" /\
  law_rec (seql (ex_sym "a") (ex_sym "b")) "xb" = law_rec (GFmap law_ab (fun v => Ret (fst v))) "xb".
Proof. vm_compute. auto. Qed.
