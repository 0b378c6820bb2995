(** Two ways to run the parse functions that are related step by step are related. *)
From Verif Require Export Interp Interrupt.

Section Rel.
Variables M N : effects.
Variable R : forall A, M A -> N A -> Prop.
Arguments R {A}.
Hypothesis Hlift : forall A (o : out A), R (x_lift M _ o) (x_lift N _ o).
Hypothesis Hbind : forall A B m m' (f : A -> M B) f', R m m' -> (forall a, R (f a) (f' a)) ->
  R (x_bind M _ _ m f) (x_bind N _ _ m' f').
Hypothesis Hcall : forall A (m : M A) m', R m m' -> R (x_call M _ m) (x_call N _ m').
Hypothesis Huse : forall A d (m : M A) m', R m m' -> R (x_use M _ d m) (x_use N _ d m').
Context {T : Type}.
Definition relp {A} (p : pgen M A) (q : pgen N A) : Prop := forall (s : list T) pos c, R (p s pos c) (q s pos c).
Definition relr {A} (p : pgenr M A) (q : pgenr N A) : Prop :=
  forall (s : list T) pos c ins rem, R (p s pos c ins rem) (q s pos c ins rem).
Lemma rel_flat {A B} (f : A -> M (list B)) f' l : (forall a, R (f a) (f' a)) -> R (gflat_map M f l) (gflat_map N f' l).
Proof using Hlift Hbind.
  intros H. induction l as [|a l IH]; cbn [gflat_map]; [apply Hlift|]. apply Hbind; [apply H|]. intros x.
  apply Hbind; [apply IH|]. intros; apply Hlift.
Qed.
Lemma rel_many {A} (p : pgen M A) q : relp p q -> forall n b vs s pos c,
  R (many_gen M p n b vs s pos c) (many_gen N q n b vs s pos c).
Proof using Hlift Hbind.
  intros H. induction n as [|n IH]; intros b vs s pos c; cbn [many_gen]; [apply Hlift|]. apply Hbind; [apply H|].
  intros [o|e]; [destruct (ok_con o); [apply IH|apply Hlift]|]. destruct (er_con e); apply Hlift.
Qed.
Lemma rel_continue {A B C} (ra : recr T A) ins (f : A -> nat -> ctx T -> Z -> M (res T B)) g (merge : A -> B -> C) :
  (forall v p c r, R (f v p c r) (g v p c r)) -> R (continue_gen M ra ins f merge) (continue_gen N ra ins g merge).
Proof using Hlift Hbind.
  intros H. apply Hbind; [|intros; apply Hlift]. apply rel_flat. intros r. apply Hbind; [apply H|].
  intros [o|e|rr]; apply Hlift.
Qed.
Lemma rel_manyr {A} (p : pgenr M A) q : relr p q -> forall n b vs s pos c ins,
  R (many_genr M p n b vs s pos c ins) (many_genr N q n b vs s pos c ins).
Proof using Hlift Hbind Hcall.
  intros H. induction n as [|n IH]; intros b vs s pos c ins; cbn [many_genr]; [apply Hlift|]. apply Hbind; [apply H|].
  intros [o|e|r]; [destruct (ok_con o); [apply IH|apply Hlift]|destruct (er_con e); apply Hlift|]. apply rel_continue. intros. apply Hcall, IH.
Qed.
Context {V : nat -> Type}.
Variable E : env T V.
Theorem gfast_rel n : forall A (g : gram T V A), relp (gfast M E n g) (gfast N E n g).
Proof using Hlift Hbind Hcall Huse.
  induction n as [|n IH]; intros A g s pos c; [apply Hlift|].
  destruct g as [A x|A f|A l| |test|teq x l|teq x l|A m|A B p f|A p q|A B p f|A B C p q merge|A p|A p|A p|A p x|A p|A p x l|A p fn lab|A p|A p|A delta p|d|A];
    cbn [gfast]; try (apply IH); apply Hcall; try (apply Hlift).
  - apply Hbind; [apply IH|]. intros; apply Hlift.
  - apply Hbind; [apply IH|]. intros [o|e]; [apply Hlift|]. destruct (er_con e); [apply Hlift|].
    apply Hbind; [apply IH|]. intros r. destruct (sres_con r); [apply Hlift|]. destruct r; apply Hlift.
  - apply Hbind; [apply IH|]. intros [o|e]; [|apply Hlift]. apply Hbind; [apply IH|]. intros; apply Hlift.
  - apply Hbind; [apply IH|]. intros [o|e]; [|apply Hlift]. apply Hbind; [apply IH|]. intros; apply Hlift.
  - apply Hbind; [apply IH|]. intros [o|e]; [apply Hlift|]. destruct (er_con e); apply Hlift.
  - apply rel_many, IH.
  - apply Hbind; [apply IH|]. intros [o|e]; apply Hlift.
  - apply Hbind; [apply IH|]. intros; apply Hlift.
  - apply Hbind; [apply IH|]. intros; apply Hlift.
  - unfold aligned_gen. destruct (Z.eqb _ _); [apply IH|apply Hlift].
  - unfold indented_gen. destruct (Z.eqb _ _); [|apply Hlift]. apply Hbind; [apply IH|]. intros; apply Hlift.
  - apply Huse, IH.
Qed.
Lemma rel_alt_recover {A} (p q : pgenr M A) p' q' la x s pos c ins rem : relr p p' -> relr q q' ->
  R (alt_recover_gen M p q la x s pos c ins rem) (alt_recover_gen N p' q' la x s pos c ins rem).
Proof using Hlift Hbind.
  intros Hp Hq. unfold alt_recover_gen. destruct rem; [|apply Hlift]. apply Hbind; [apply Hp|]. intros a.
  apply Hbind; [apply Hq|]. intros b. destruct a, b; apply Hlift.
Qed.
Lemma rel_recover_with {A} (p : pgenr M A) p' mk lab s pos c ins rem : relr p p' ->
  R (recover_with_genr M p mk lab s pos c ins rem) (recover_with_genr N p' mk lab s pos c ins rem).
Proof using Hlift Hbind.
  intros Hp. unfold recover_with_genr. destruct rem; [|apply Hp]. apply Hbind; [apply Hp|]. intros r. apply Hlift.
Qed.
Theorem gfull_rel n : forall A (g : gram T V A), relr (gfull M E n g) (gfull N E n g).
Proof using Hlift Hbind Hcall Huse.
  induction n as [|n IH]; intros A g s pos c ins rem; [apply Hlift|]. cbn [gfull]. apply Hcall.
  destruct g as [A x|A f|A l| |test|teq x l|teq x l|A m|A B p f|A p q|A B p f|A B C p q merge|A p|A p|A p|A p x|A p|A p x l|A p fn lab|A p|A p|A delta p|d|A];
    try (apply Hlift).
  - apply Hbind; [apply IH|]. intros; apply Hlift.
  - unfold alt_genr. apply Hbind; [apply IH|]. intros [o|[la xa ca]|[reps mn la xa ca]]; [apply Hlift| |];
      (destruct ca; [apply Hlift|]; apply Hbind; [apply IH|]; intros b; destruct (res_con b); [apply Hlift|];
       destruct b; [apply Hlift| |]; apply rel_alt_recover; apply IH).
  - apply Hbind; [apply IH|]. intros [o|e|r]; [|apply Hlift|].
    + apply Hbind; [apply IH|]. intros; apply Hlift.
    + apply rel_continue. intros; apply IH.
  - apply Hbind; [apply IH|]. intros [o|e|r]; [|apply Hlift|].
    + apply Hbind; [apply IH|]. intros; apply Hlift.
    + apply rel_continue. intros; apply IH.
  - apply Hbind; [apply IH|]. intros; apply Hlift.
  - apply rel_manyr, IH.
  - unfold attempt_genr. destruct rem; [apply IH|]. apply Hbind; [apply gfast_rel|]. intros [o|e]; apply Hlift.
  - apply Hbind; [apply IH|]. intros; apply Hlift.
  - apply Hbind; [apply IH|]. intros; apply Hlift.
  - apply rel_recover_with, IH.
  - apply rel_recover_with, IH.
  - apply Hbind; [apply IH|]. intros; apply Hlift.
  - unfold aligned_genr. destruct (Z.eqb _ _); [apply IH|apply Hlift].
  - unfold indented_genr. destruct (Z.eqb _ _); [|apply Hlift]. apply Hbind; [apply IH|]. intros; apply Hlift.
  - apply Huse, IH.
Qed.
Theorem gparse_rel n A (g : gram T V A) s rec mi get fmt : R (gparse M E n g s rec mi get fmt) (gparse N E n g s rec mi get fmt).
Proof using Hlift Hbind Hcall Huse.
  unfold gparse. cbv zeta. apply Hbind; [|intros; apply Hlift]. destruct rec; [apply gfull_rel|].
  apply Hbind; [apply gfast_rel|]. intros; apply Hlift.
Qed.
End Rel.
