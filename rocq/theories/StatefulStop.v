(** Interrupting a parse whose callbacks have side effects (C59, C69): an exception that is
    raised inside a callback, at any one of its calls, by something outside of the parser
    (KeyboardInterrupt, MemoryError, ...).  *)
From Verif Require Export Stateful.
From Coq Require Import Lia.

Section Stop.
Context {St T : Type} {V : nat -> Type}.

(** The undisturbed run, watched: the states after each call of a callback, in order. *)
Definition watched {A} (m : st St A) : st (list St * St) A :=
  fun x => let (w', o) := m (snd x) in ((fst x ++ [w'], w'), o).
Fixpoint watch {A} (g : sgram St T V A) : sgram (list St * St) T V A :=
  match g with
  | XPure x => XPure x
  | XPureFn f => XPureFn (fun u => watched (f u))
  | XUnexpected l => XUnexpected l
  | XEof => XEof
  | XSatisfy test => XSatisfy (fun t => watched (test t))
  | XSym teq x l => XSym teq x l
  | XLiteral teq x l => XLiteral teq x l
  | XRegexp m => XRegexp m
  | XFmap p f => XFmap (watch p) (fun a => watched (f a))
  | XAlt p q => XAlt (watch p) (watch q)
  | XBind p f => XBind (watch p) (fun a x =>
      match f a (snd x) with
      | (w', Ret q) => ((fst x ++ [w'], w'), Ret (watch q))
      | (w', Raise e) => ((fst x ++ [w'], w'), Raise e)
      | (w', NoFuel) => ((fst x ++ [w'], w'), NoFuel)
      end)
  | XSeq p q merge => XSeq (watch p) (watch q) merge
  | XMaybe p => XMaybe (watch p)
  | XMany p => XMany (watch p)
  | XAttempt p => XAttempt (watch p)
  | XLabel p x => XLabel (watch p) x
  | XRecover p => XRecover (watch p)
  | XRecoverWith p x l => XRecoverWith (watch p) x l
  | XRecoverWithFn p fn lab => XRecoverWithFn (watch p) (fun s i => watched (fn s i)) lab
  | XBlock p => XBlock (watch p)
  | XAligned p => XAligned (watch p)
  | XIndented d p => XIndented d (watch p)
  | XDelay d => XDelay d
  | XUndef => XUndef
  end.

(** The disturbed run: [k] more calls of callbacks are undisturbed; the next one does part of
    what it does to the state ([part], which may be nothing) and is then left by the
    exception [x]. *)
Variable part : St -> St.
Variable x : exn.
Definition stopped {A} (m : st St A) : st (nat * St) A :=
  fun y => match fst y with
           | O => ((O, part (snd y)), Raise x)
           | S k => let (w', o) := m (snd y) in ((k, w'), o)
           end.
Fixpoint stop {A} (g : sgram St T V A) : sgram (nat * St) T V A :=
  match g with
  | XPure x => XPure x
  | XPureFn f => XPureFn (fun u => stopped (f u))
  | XUnexpected l => XUnexpected l
  | XEof => XEof
  | XSatisfy test => XSatisfy (fun t => stopped (test t))
  | XSym teq x l => XSym teq x l
  | XLiteral teq x l => XLiteral teq x l
  | XRegexp m => XRegexp m
  | XFmap p f => XFmap (stop p) (fun a => stopped (f a))
  | XAlt p q => XAlt (stop p) (stop q)
  | XBind p f => XBind (stop p) (fun a y =>
      match fst y with
      | O => ((O, part (snd y)), Raise x)
      | S k =>
          match f a (snd y) with
          | (w', Ret q) => ((k, w'), Ret (stop q))
          | (w', Raise e) => ((k, w'), Raise e)
          | (w', NoFuel) => ((k, w'), NoFuel)
          end
      end)
  | XSeq p q merge => XSeq (stop p) (stop q) merge
  | XMaybe p => XMaybe (stop p)
  | XMany p => XMany (stop p)
  | XAttempt p => XAttempt (stop p)
  | XLabel p x => XLabel (stop p) x
  | XRecover p => XRecover (stop p)
  | XRecoverWith p x l => XRecoverWith (stop p) x l
  | XRecoverWithFn p fn lab => XRecoverWithFn (stop p) (fun s i => stopped (fn s i)) lab
  | XBlock p => XBlock (stop p)
  | XAligned p => XAligned (stop p)
  | XIndented d p => XIndented d (stop p)
  | XDelay d => XDelay d
  | XUndef => XUndef
  end.

(** ** How the three runs are related *)
Definition syn {A} (m : st St A) (mw : st (list St * St) A) (ms : st (nat * St) A) : Prop :=
  forall w, exists h, last h w = fst (m w) /\
    (forall h0, mw (h0, w) = ((h0 ++ h, fst (m w)), snd (m w))) /\
    (forall k, ms (k, w) = if Nat.ltb k (List.length h) then ((0, part (nth k (w :: h) w)), Raise x)
                           else ((k - List.length h, fst (m w)), snd (m w))).

Lemma last_app {A} (h1 h2 : list A) w : last (h1 ++ h2) w = last h2 (last h1 w).
Proof.
  revert w. induction h1 as [|a h1 IH]; intros w; [reflexivity|].
  assert (Q : forall (l : list A) a w, last (a :: l) w = last l a).
  { induction l as [|b l IHl]; intros a0 w0; [reflexivity|]. change (last (a0 :: b :: l) w0) with (last (b :: l) w0).
    rewrite (IHl b w0). change (last (b :: l) a0) with (last (b :: l) a0). rewrite (IHl b a0). reflexivity. }
  change ((a :: h1) ++ h2) with (a :: (h1 ++ h2)). rewrite !Q. apply IH.
Qed.
Lemma nth_last {A} (h : list A) w d : nth (List.length h) (w :: h) d = last h w.
Proof.
  revert w. induction h as [|a h IH]; intros w; [reflexivity|]. cbn [List.length].
  change (nth (S (List.length h)) (w :: a :: h) d) with (nth (List.length h) (a :: h) d). rewrite IH.
  change (a :: h) with ([a] ++ h). rewrite last_app. reflexivity.
Qed.
Lemma nth_both (h1 h2 : list St) w k : List.length h1 <= k -> k - List.length h1 <= List.length h2 ->
  nth k (w :: h1 ++ h2) w = nth (k - List.length h1) (last h1 w :: h2) (last h1 w).
Proof.
  intros H1 H2. destruct (Nat.eq_dec k (List.length h1)) as [->|N].
  - rewrite Nat.sub_diag. change (w :: h1 ++ h2) with ((w :: h1) ++ h2). rewrite app_nth1 by (cbn; lia). apply nth_last.
  - change (w :: h1 ++ h2) with ((w :: h1) ++ h2). rewrite app_nth2 by (cbn; lia). cbn [List.length].
    replace (k - List.length h1) with (S (k - S (List.length h1))) by lia. cbn [nth]. apply nth_indep. lia.
Qed.

Lemma syn_lift {A} (o : out A) : syn (slift o) (slift o) (slift o).
Proof.
  intros w. exists []. cbn. split; [reflexivity|]. split; [intros h0; rewrite app_nil_r; reflexivity|].
  intros k. rewrite Nat.sub_0_r. reflexivity.
Qed.
Lemma syn_callback {A} (m : st St A) : syn m (watched m) (stopped m).
Proof.
  intros w. exists [fst (m w)]. split; [reflexivity|]. unfold watched, stopped. cbn [fst snd]. destruct (m w) as [w' o]. cbn [fst snd].
  split; [reflexivity|]. intros [|k]; [reflexivity|]. cbn. rewrite Nat.sub_0_r. reflexivity.
Qed.
(** one after the other *)
Lemma syn_then {A B A' A''} (m : st St A) (mw : st (list St * St) A') (ms : st (nat * St) A'')
    (k : A -> st St B) kw ks (Q : A -> A' -> A'' -> Prop) :
  (forall w, exists h, last h w = fst (m w) /\
    match snd (m w) with
    | Ret a => exists a' a'', Q a a' a'' /\ (forall h0, mw (h0, w) = ((h0 ++ h, fst (m w)), Ret a')) /\
        (forall k, ms (k, w) = if Nat.ltb k (List.length h) then ((0, part (nth k (w :: h) w)), Raise x) else ((k - List.length h, fst (m w)), Ret a''))
    | Raise e => (forall h0, mw (h0, w) = ((h0 ++ h, fst (m w)), Raise e)) /\
        (forall k, ms (k, w) = if Nat.ltb k (List.length h) then ((0, part (nth k (w :: h) w)), Raise x) else ((k - List.length h, fst (m w)), Raise e))
    | NoFuel => (forall h0, mw (h0, w) = ((h0 ++ h, fst (m w)), NoFuel)) /\
        (forall k, ms (k, w) = if Nat.ltb k (List.length h) then ((0, part (nth k (w :: h) w)), Raise x) else ((k - List.length h, fst (m w)), NoFuel))
    end) ->
  (forall a a' a'', Q a a' a'' -> syn (k a) (kw a') (ks a'')) ->
  syn (sbind m k) (sbind mw kw) (sbind ms ks).
Proof.
  intros H Hk w. destruct (H w) as (h & L & K). destruct (m w) as [w1 o] eqn:Q1. cbn [fst snd] in *. destruct o as [a|e|].
  - destruct K as (a' & a'' & Ha & K1 & K2). destruct (Hk a a' a'' Ha w1) as (h2 & L2 & M1 & M2).
    exists (h ++ h2). unfold sbind. rewrite Q1. split; [rewrite last_app, L; exact L2|]. split.
    + intros h0. rewrite K1, M1, app_assoc. reflexivity.
    + intros j. rewrite K2, app_length. destruct (Nat.ltb_spec j (List.length h)) as [J|J].
      * destruct (Nat.ltb_spec j (List.length h + List.length h2)); [|lia].
        change (w :: h ++ h2) with ((w :: h) ++ h2). rewrite (app_nth1 (w :: h)) by (cbn; lia). reflexivity.
      * rewrite M2. destruct (Nat.ltb_spec (j - List.length h) (List.length h2)) as [J2|J2];
          destruct (Nat.ltb_spec j (List.length h + List.length h2)); try lia.
        -- rewrite (nth_both h h2 w j) by lia. rewrite L. reflexivity.
        -- replace (j - (List.length h + List.length h2)) with (j - List.length h - List.length h2) by lia. reflexivity.
  - exists h. unfold sbind. rewrite Q1. destruct K as [K1 K2]. cbn [fst snd]. split; [exact L|].
    split; [intros h0; rewrite K1; reflexivity|]. intros j. rewrite K2. destruct (Nat.ltb j (List.length h)); reflexivity.
  - exists h. unfold sbind. rewrite Q1. destruct K as [K1 K2]. cbn [fst snd]. split; [exact L|].
    split; [intros h0; rewrite K1; reflexivity|]. intros j. rewrite K2. destruct (Nat.ltb j (List.length h)); reflexivity.
Qed.
Lemma syn_bind {A B} (m : st St A) mw ms (k : A -> st St B) kw ks :
  syn m mw ms -> (forall a, syn (k a) (kw a) (ks a)) -> syn (sbind m k) (sbind mw kw) (sbind ms ks).
Proof.
  intros H Hk. apply (syn_then m mw ms k kw ks (fun a a' a'' => a = a' /\ a = a'')).
  - intros w. destruct (H w) as (h & L & K1 & K2). exists h. split; [exact L|]. destruct (snd (m w)) eqn:Q; eauto 6.
  - intros a a' a'' [<- <-]. apply Hk.
Qed.
Lemma syn_map {A B} (f : A -> st St B) fw fs l : (forall a, syn (f a) (fw a) (fs a)) -> syn (smap f l) (smap fw l) (smap fs l).
Proof.
  intros H. induction l as [|a l IH]; simpl; [apply syn_lift|].
  apply syn_bind; [apply H|]. intros y. apply syn_bind; [exact IH|]. intros z. apply syn_lift.
Qed.
Lemma syn_flat_map {A B} (f : A -> st St (list B)) fw fs l : (forall a, syn (f a) (fw a) (fs a)) ->
  syn (sflat_map f l) (sflat_map fw l) (sflat_map fs l).
Proof.
  intros H. induction l as [|a l IH]; simpl; [apply syn_lift|].
  apply syn_bind; [apply H|]. intros y. apply syn_bind; [exact IH|]. intros z. apply syn_lift.
Qed.
Lemma syn_skip {X} (p : nat -> st St (option X)) pw ps k cur :
  (forall c, syn (p c) (pw c) (ps c)) -> syn (skip_loop_st p k cur) (skip_loop_st pw k cur) (skip_loop_st ps k cur).
Proof.
  intros H. revert cur. induction k as [|k IH]; intros cur; simpl; [apply syn_lift|].
  apply syn_bind; auto. intros [y|]; [apply syn_lift|apply IH].
Qed.
Lemma syn_probe (test : T -> st St bool) tw ts s i :
  (forall t, syn (test t) (tw t) (ts t)) -> syn (probe_tok_st test s i) (probe_tok_st tw s i) (probe_tok_st ts s i).
Proof.
  intros H. unfold probe_tok_st. destruct (nth_error s i); [|apply syn_lift].
  apply syn_bind; [apply H|]. intros; apply syn_lift.
Qed.
Ltac sgo :=
  repeat (first
    [ apply syn_lift
    | solve [auto]
    | apply syn_callback
    | match goal with |- syn (sbind _ _) _ _ => apply syn_bind; [|intros] end
    | match goal with |- syn (match ?y with _ => _ end) _ _ => destruct y end
    | match goal with |- syn (if ?y then _ else _) _ _ => destruct y end
    | match goal with |- forall _, _ => intro end ]).
Lemma syn_sres_fmap {A B} (f : A -> st St B) fw fs (r : sres T A) :
  (forall a, syn (f a) (fw a) (fs a)) -> syn (sres_fmap_st f r) (sres_fmap_st fw r) (sres_fmap_st fs r).
Proof. intros H. unfold sres_fmap_st, ok_fmap_st. sgo. Qed.
Lemma syn_res_fmap {A B} (f : A -> st St B) fw fs (r : res T A) :
  (forall a, syn (f a) (fw a) (fs a)) -> syn (res_fmap_st f r) (res_fmap_st fw r) (res_fmap_st fs r).
Proof.
  intros H. unfold res_fmap_st, ok_fmap_st, rec_fmap_st, rep_fmap_st. sgo. apply syn_map. sgo.
Qed.
Lemma syn_continue {A B C} (ra : recr T A) ins (f : A -> nat -> ctx T -> Z -> st St (res T B)) fw fs (merge : A -> B -> C) :
  (forall v p c r, syn (f v p c r) (fw v p c r) (fs v p c r)) ->
  syn (continue_st ra ins f merge) (continue_st ra ins fw merge) (continue_st ra ins fs merge).
Proof.
  intros H. unfold continue_st. apply syn_bind; [|intros; apply syn_lift]. apply syn_flat_map.
  intros r. unfold cont_one_st. sgo.
Qed.
Lemma syn_many_f {A} (p : psf St T A) pw ps n s :
  (forall pos c, syn (p s pos c) (pw s pos c) (ps s pos c)) ->
  forall con v pos c, syn (many_sf p n con v s pos c) (many_sf pw n con v s pos c) (many_sf ps n con v s pos c).
Proof. intros H. induction n as [|n IH]; intros con v pos c; simpl; sgo. Qed.
Lemma syn_many_r {A} (p : psr St T A) pw ps n s ins :
  (forall pos c rem, syn (p s pos c ins rem) (pw s pos c ins rem) (ps s pos c ins rem)) ->
  forall con v pos c, syn (many_sr p n con v s pos c ins) (many_sr pw n con v s pos c ins) (many_sr ps n con v s pos c ins).
Proof. intros H. induction n as [|n IH]; intros con v pos c; simpl; sgo. apply syn_continue. auto. Qed.

(** a callback that returns a parser, and the run of that parser *)
Lemma syn_call {A B X} (p : sgram St T V A) (f : A -> St -> St * out (sgram St T V B)) a run runw runs :
  (forall q, syn (run q) (runw (watch q)) (runs (stop q))) ->
  syn (sbind (f a) run : st St X)
    (sbind (fun y => match f a (snd y) with
      | (w', Ret q) => ((fst y ++ [w'], w'), Ret (watch q))
      | (w', Raise e) => ((fst y ++ [w'], w'), Raise e)
      | (w', NoFuel) => ((fst y ++ [w'], w'), NoFuel)
      end) runw)
    (sbind (fun y => match fst y with
      | O => ((O, part (snd y)), Raise x)
      | S k =>
          match f a (snd y) with
          | (w', Ret q) => ((k, w'), Ret (stop q))
          | (w', Raise e) => ((k, w'), Raise e)
          | (w', NoFuel) => ((k, w'), NoFuel)
          end
      end) runs).
Proof.
  intros H. apply (syn_then _ _ _ _ _ _ (fun q q' q'' => q' = watch q /\ q'' = stop q)).
  - intros w. exists [fst (f a w)]. split; [reflexivity|]. cbn [fst snd]. destruct (f a w) as [w' [q|e|]]; cbn [fst snd].
    1: exists (watch q), (stop q); split; [auto|].
    all: split; [reflexivity|]; intros [|k]; cbn; rewrite ?Nat.sub_0_r; reflexivity.
  - intros q q' q'' [-> ->]. apply H.
Qed.

Variable E : senv St T V.
Lemma syn_fast n : forall A (g : sgram St T V A) s pos c,
  syn (sfast E n g s pos c) (sfast (fun d => watch (E d)) n (watch g) s pos c) (sfast (fun d => stop (E d)) n (stop g) s pos c).
Proof.
  induction n as [|n IH]; intros A g s pos c; simpl; [apply syn_lift|].
  destruct g; simpl;
    unfold purefn_sf, satisfy_sf, fmap_sf, alt_sf, seq_sf, maybe_sf, attempt_sf, label_sf,
      block_sf, aligned_sf, indented_sf; cbv zeta; try solve [sgo].
  - apply syn_bind; [apply syn_probe; intros; apply syn_callback|sgo].
  - apply syn_bind; [apply IH|]. intros; apply syn_sres_fmap; intros; apply syn_callback.
  - unfold bind_sf. apply syn_bind; [apply IH|]. intros [o|e]; [|apply syn_lift].
    apply (syn_call g). intros q. sgo.
  - apply syn_many_f. intros; apply IH.
Qed.
Lemma syn_full n : forall A (g : sgram St T V A) s pos c ins rem,
  syn (sfull E n g s pos c ins rem) (sfull (fun d => watch (E d)) n (watch g) s pos c ins rem)
    (sfull (fun d => stop (E d)) n (stop g) s pos c ins rem).
Proof.
  induction n as [|n IH]; intros A g s pos c ins rem; simpl; [apply syn_lift|].
  destruct g; simpl;
    unfold purefn_sr, satisfy_sr, fmap_sr, alt_sr, alt_recover_sr, seq_sr, maybe_sr, attempt_sr, label_sr,
      recover_sr, recover_with_sr, block_sr, aligned_sr, indented_sr; cbv zeta; try solve [sgo].
  - apply syn_bind; [apply syn_probe; intros; apply syn_callback|]. intros [t|]; [sgo|]. destruct rem; [|sgo].
    apply syn_bind; [|sgo]. apply syn_skip. intros; apply syn_probe; intros; apply syn_callback.
  - apply syn_bind; [apply IH|]. intros; apply syn_res_fmap; intros; apply syn_callback.
  - unfold bind_sr. apply syn_bind; [apply IH|]. intros [o|e|rc]; [|apply syn_lift|].
    + apply (syn_call g). intros q. sgo.
    + apply syn_continue. intros. apply (syn_call g). intros q. apply IH.
  - apply syn_bind; [apply IH|]. intros [o|e|rc]; [|apply syn_lift|].
    + sgo.
    + apply syn_continue. intros; apply IH.
  - apply syn_many_r. intros; apply IH.
  - destruct rem; [apply IH|]. apply syn_bind; [apply syn_fast|sgo].
Qed.
End Stop.
