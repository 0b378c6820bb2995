(** Proofs about the model with stateful callbacks: it extends the model without
    effects, does not depend on the fuel, and its two interpreters are related. *)
From Verif Require Export Stateful Simulation.

(** ** 1. Without effects it is the model of [Grammar.v] *)
Definition same {St A} (m : st St A) (o : out A) : Prop := forall w, m w = (w, o).

Lemma same_lift {St A} (o : out A) : same (St:=St) (slift o) o.
Proof. intros w; reflexivity. Qed.
Lemma same_bind {St A B} (m : st St A) o (k : A -> st St B) k' :
  same m o -> (forall a, same (k a) (k' a)) -> same (sbind m k) (obind o k').
Proof. intros H Hk w. unfold sbind. rewrite H. destruct o; simpl; auto. apply Hk. Qed.
Lemma same_map {St A B} (f : A -> st St B) f' l :
  (forall a, same (f a) (f' a)) -> same (smap f l) (mapM f' l).
Proof.
  intros H. induction l as [|a l IH]; simpl; [apply same_lift|].
  apply same_bind; auto. intros x. apply same_bind; auto. intros y. apply same_lift.
Qed.
Lemma same_flat_map {St A B} (f : A -> st St (list B)) f' l :
  (forall a, same (f a) (f' a)) -> same (sflat_map f l) (flat_mapM f' l).
Proof.
  intros H. induction l as [|a l IH]; simpl; [apply same_lift|].
  apply same_bind; auto. intros x. apply same_bind; auto. intros y. apply same_lift.
Qed.

Section Same.
Context {St T : Type} {V : nat -> Type}.

Lemma same_skip {X} (p : nat -> st St (option X)) p' k cur :
  (forall c, same (p c) (p' c)) -> same (skip_loop_st p k cur) (skip_loop p' k cur).
Proof.
  intros H. revert cur. induction k as [|k IH]; intros cur; simpl; [apply same_lift|].
  apply same_bind; auto. intros [x|]; [apply same_lift|apply IH].
Qed.
Lemma same_sres_fmap {A B} (f : A -> out B) (r : sres T A) :
  same (St:=St) (sres_fmap_st (fun a => slift (f a)) r) (sres_fmap f r).
Proof.
  destruct r as [o|e]; simpl; [|apply same_lift]. unfold ok_fmap_st, ok_fmap.
  apply same_bind; [apply same_bind; [apply same_lift|]|]; intros; apply same_lift.
Qed.
Lemma same_res_fmap {A B} (f : A -> out B) (r : res T A) :
  same (St:=St) (res_fmap_st (fun a => slift (f a)) r) (res_fmap f r).
Proof.
  destruct r as [o|e|rc]; simpl; [|apply same_lift|].
  - unfold ok_fmap_st, ok_fmap.
    apply same_bind; [apply same_bind; [apply same_lift|]|]; intros; apply same_lift.
  - unfold rec_fmap_st, rec_fmap. apply same_bind; [|intros; apply same_lift].
    apply same_bind; [|intros; apply same_lift]. apply same_map. intros r.
    unfold rep_fmap_st, rep_fmap. apply same_bind; intros; apply same_lift.
Qed.
Lemma same_continue {A B C} (ra : recr T A) ins (f : A -> nat -> ctx T -> Z -> st St (res T B)) f'
    (merge : A -> B -> C) :
  (forall v p c r, same (f v p c r) (f' v p c r)) ->
  same (continue_st ra ins f merge) (continue_parse ra ins f' merge).
Proof.
  intros H. unfold continue_st, continue_parse. apply same_bind; [|intros; apply same_lift].
  apply same_flat_map. intros r. unfold cont_one_st, cont_one. apply same_bind; auto.
  intros [o|e|rb]; apply same_lift.
Qed.
Lemma same_many_f {A} (p : psf St T A) p' n s :
  (forall pos c, same (p s pos c) (p' s pos c)) ->
  forall con v pos c, same (many_sf p n con v s pos c) (many_fast p' n con v s pos c).
Proof.
  intros H. induction n as [|n IH]; intros con v pos c; simpl; [apply same_lift|].
  apply same_bind; auto. intros [o|e].
  - destruct (ok_con o); [apply IH|apply same_lift].
  - destruct (er_con e); apply same_lift.
Qed.
Lemma same_many_r {A} (p : psr St T A) p' n s ins :
  (forall pos c rem, same (p s pos c ins rem) (p' s pos c ins rem)) ->
  forall con v pos c, same (many_sr p n con v s pos c ins) (many_full p' n con v s pos c ins).
Proof.
  intros H. induction n as [|n IH]; intros con v pos c; simpl; [apply same_lift|].
  apply same_bind; auto. intros [o|e|rc].
  - destruct (ok_con o); [apply IH|apply same_lift].
  - destruct (er_con e); apply same_lift.
  - apply same_continue. intros; apply IH.
Qed.

Definition lift_env (E : env T V) : senv St T V := fun d => lift_gram (E d).

Ltac sgo :=
  repeat (first
    [ apply same_lift
    | solve [auto]
    | apply same_bind; [|intros]
    | match goal with |- same (match ?x with _ => _ end) (match ?x with _ => _ end) => destruct x end
    | match goal with |- same (if ?x then _ else _) (if ?x then _ else _) => destruct x end
    | match goal with |- forall _, _ => intro end ]).

Lemma same_probe (test : T -> out bool) s i :
  same (St:=St) (probe_tok_st (fun t => slift (test t)) s i) (probe_tok test s i).
Proof. unfold probe_tok_st, probe_tok. destruct (nth_error s i); sgo. Qed.

Lemma same_fast (E : env T V) n : forall A (g : gram T V A) s pos c,
  same (sfast (lift_env E) n (lift_gram g) s pos c) (fast E n g s pos c).
Proof.
  induction n as [|n IH]; intros A g s pos c; simpl; [apply same_lift|].
  destruct g; simpl;
    unfold purefn_sf, purefn_fast, fmap_sf, fmap_fast, alt_sf, alt_fast, seq_sf, seq_fast,
      maybe_sf, maybe_fast, attempt_sf, attempt_fast, label_sf, label_fast, recover_fast,
      recover_with_fast, block_sf, block_fast, aligned_sf, aligned_fast, indented_sf, indented_fast;
    cbv zeta; try solve [sgo].
  - unfold satisfy_sf, satisfy_fast. apply same_bind; [apply same_probe|]. sgo.
  - apply same_bind; [auto|]. intros; apply same_sres_fmap.
  - unfold bind_sf, bind_fast. apply same_bind; [auto|]. intros [o|e]; [|apply same_lift].
    intros w. cbn [sbind]. unfold sbind at 1. apply same_bind; [apply IH|]. intros; apply same_lift.
  - apply same_many_f. auto.
  - apply IH.
Qed.

Lemma same_full (E : env T V) n : forall A (g : gram T V A) s pos c ins rem,
  same (sfull (lift_env E) n (lift_gram g) s pos c ins rem) (full E n g s pos c ins rem).
Proof.
  induction n as [|n IH]; intros A g s pos c ins rem; simpl; [apply same_lift|].
  destruct g; simpl;
    unfold purefn_sr, purefn_full, fmap_sr, fmap_full, alt_sr, alt_full, alt_recover_sr, alt_recover,
      seq_sr, seq_full,
      maybe_sr, maybe_full, attempt_sr, attempt_full, label_sr, label_full, recover_sr, recover_full,
      recover_with_sr, recover_with_full, block_sr, block_full, aligned_sr, aligned_full, indented_sr,
      indented_full;
    cbv zeta; try solve [sgo].
  - unfold satisfy_sr, satisfy_full, skip_search. apply same_bind; [apply same_probe|]. intros [t|]; [sgo|].
    destruct rem; [|sgo]. apply same_bind; [|sgo]. apply same_skip. intros; apply same_probe.
  - apply same_bind; [auto|]. intros; apply same_res_fmap.
  - unfold bind_sr, bind_full. apply same_bind; [auto|]. intros [o|e|rc]; [|apply same_lift|].
    + intros w. unfold sbind at 1. destruct (ok_con o); (apply same_bind; [apply IH|]; intros; apply same_lift).
    + apply same_continue. intros v p0 c0 r w. unfold sbind. apply IH.
  - apply same_bind; [auto|]. intros [o|e|rc]; [|apply same_lift|].
    + apply same_bind; [auto|intros; apply same_lift].
    + apply same_continue. auto.
  - apply same_many_r. auto.
  - destruct rem; [auto|]. apply same_bind; [apply same_fast|]. intros [o|e]; apply same_lift.
  - apply IH.
Qed.
End Same.

(** ** 2. The outcome of a finished run does not depend on the fuel *)
Definition slef {St A} (m m' : st St A) : Prop := forall w, snd (m w) = NoFuel \/ m w = m' w.
Lemma slef_refl {St A} (m : st St A) : slef m m.
Proof. right; reflexivity. Qed.
Lemma slef_nofuel {St A} (m : st St A) : slef (slift NoFuel) m.
Proof. left; reflexivity. Qed.
Lemma slef_bind {St A B} (m m' : st St A) (k k' : A -> st St B) :
  slef m m' -> (forall x, slef (k x) (k' x)) -> slef (sbind m k) (sbind m' k').
Proof.
  intros H Hk w. unfold sbind. destruct (H w) as [E|E].
  - destruct (m w) as [w' o]; simpl in E; subst o. left; reflexivity.
  - rewrite <- E. destruct (m w) as [w' [a|e|]]; auto. apply Hk.
Qed.
Lemma slef_flat_map {St A B} (f f' : A -> st St (list B)) l :
  (forall x, slef (f x) (f' x)) -> slef (sflat_map f l) (sflat_map f' l).
Proof.
  intros H; induction l as [|x l IH]; simpl; [apply slef_refl|].
  apply slef_bind; [apply H|intros y]. apply slef_bind; [exact IH|intros; apply slef_refl].
Qed.
Section SFuel.
Context {St T : Type} {V : nat -> Type}.
Ltac go :=
  repeat (first
    [ apply slef_refl
    | apply slef_nofuel
    | solve [auto]
    | apply slef_bind; [|intros]
    | match goal with |- slef (match ?x with _ => _ end) (match ?x with _ => _ end) =>
        destruct x end
    | match goal with |- slef (if ?x then _ else _) (if ?x then _ else _) =>
        destruct x end
    | apply slef_flat_map; intros ]).
Lemma slef_continue {A B C} (ra : recr T A) ins
    (f f' : A -> nat -> ctx T -> Z -> st St (res T B)) (merge : A -> B -> C) :
  (forall v p c r, slef (f v p c r) (f' v p c r)) ->
  slef (continue_st ra ins f merge) (continue_st ra ins f' merge).
Proof. intros H. unfold continue_st, cont_one_st. go. Qed.
Lemma slef_many_f {A} (p p' : psf St T A) n m s :
  (forall pos c, slef (p s pos c) (p' s pos c)) -> n <= m ->
  forall con v pos c, slef (many_sf p n con v s pos c) (many_sf p' m con v s pos c).
Proof.
  intros H. revert m.
  induction n as [|n IH]; intros [|m] Hnm con v pos c; simpl; [go|go|exfalso; lia|].
  apply slef_bind; [apply H|intros r]. destruct r as [o|e]; go. apply IH; lia.
Qed.
Lemma slef_many_r {A} (p p' : psr St T A) n m s :
  (forall pos c ins rem, slef (p s pos c ins rem) (p' s pos c ins rem)) -> n <= m ->
  forall con v pos c ins, slef (many_sr p n con v s pos c ins) (many_sr p' m con v s pos c ins).
Proof.
  intros H. revert m.
  induction n as [|n IH]; intros [|m] Hnm con v pos c ins; simpl; [go|go|exfalso; lia|].
  apply slef_bind; [apply H|intros r]. destruct r as [o|e|rc]; go.
  - apply IH; lia.
  - apply IH; lia.
Qed.
Lemma sfast_lef (E : senv St T V) n : forall m, n <= m -> forall A (g : sgram St T V A) s pos c,
  slef (sfast E n g s pos c) (sfast E m g s pos c).
Proof.
  induction n as [|n IH]; intros [|m] Hnm A g s pos c; simpl; [go|go|exfalso; lia|].
  assert (H : forall A (g : sgram St T V A) s pos c,
    slef (sfast E n g s pos c) (sfast E m g s pos c)) by (intros; apply IH; lia).
  assert (Hn : n <= m) by lia.
  destruct g;
    unfold fmap_sf, alt_sf, bind_sf, seq_sf, maybe_sf, attempt_sf,
      label_sf, block_sf, aligned_sf, indented_sf; cbv zeta; try solve [go].
  apply slef_many_f; auto.
Qed.
Lemma sfull_lef (E : senv St T V) n : forall m, n <= m -> forall A (g : sgram St T V A) s pos c ins rem,
  slef (sfull E n g s pos c ins rem) (sfull E m g s pos c ins rem).
Proof.
  induction n as [|n IH]; intros [|m] Hnm A g s pos c ins rem; simpl; [go|go|exfalso; lia|].
  assert (H : forall A (g : sgram St T V A) s pos c ins rem,
    slef (sfull E n g s pos c ins rem) (sfull E m g s pos c ins rem)) by (intros; apply IH; lia).
  assert (Hn : n <= m) by lia.
  destruct g;
    unfold fmap_sr, alt_sr, alt_recover_sr, bind_sr, seq_sr, maybe_sr, attempt_sr,
      label_sr, recover_sr, recover_with_sr, block_sr, aligned_sr, indented_sr; cbv zeta; try solve [go].
  - apply slef_many_r; auto.
  - destruct rem; go. apply sfast_lef; auto.
Qed.
Lemma sparse_lef (E : senv St T V) n m A (g : sgram St T V A) s rec mi get fmt :
  n <= m -> slef (sparse E n g s rec mi get fmt) (sparse E m g s rec mi get fmt).
Proof.
  intros H. unfold sparse. apply slef_bind; [|intros; apply slef_refl]. destruct rec.
  - apply sfull_lef; auto.
  - apply slef_bind; [apply sfast_lef; auto|intros; apply slef_refl].
Qed.
End SFuel.
