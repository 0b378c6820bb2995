(** The repairs that the tutorial's list parser offers (RecSpec.v), for every text. *)
From Verif Require Import RecSpec LL EditSpec.
From Verif Require Export TutorialSpec.
From Coq Require Import Lia.
Import ListNotations.

(** ** The first of the cheapest *)
Section Best.
Context {X : Type} (tot : X -> nat).
Definition best (l : list X) (r : X) : Prop :=
  exists l1 l2, l = l1 ++ r :: l2 /\ (forall x, In x l1 -> tot r < tot x) /\ (forall x, In x l2 -> tot r <= tot x).
Lemma best_all l r : best l r -> forall x, In x l -> tot r <= tot x.
Proof.
  intros (l1 & l2 & -> & H1 & H2) x Hx. apply in_app_or in Hx as [Hx|[<-|Hx]]; [apply H1 in Hx; lia|lia|auto].
Qed.
Lemma best_app l a l' b : best l a -> best l' b -> best (l ++ l') (if tot b <? tot a then b else a).
Proof.
  intros Ha Hb. pose proof (best_all _ _ Ha) as Ka. pose proof (best_all _ _ Hb) as Kb.
  destruct (Nat.ltb_spec (tot b) (tot a)) as [H|H].
  - destruct Hb as (l1 & l2 & -> & H1 & H2). exists (l ++ l1), l2. rewrite <- app_assoc. split; [reflexivity|]. split; auto.
    intros x Hx. apply in_app_or in Hx as [Hx|Hx]; auto. apply Ka in Hx. lia.
  - destruct Ha as (l1 & l2 & -> & H1 & H2). exists l1, (l2 ++ l'). rewrite <- app_assoc. split; [reflexivity|]. split; auto.
    intros x Hx. apply in_app_or in Hx as [Hx|Hx]; auto. apply Kb in Hx. lia.
Qed.
Lemma best_one x : best [x] x.
Proof. exists [], []. split; [reflexivity|]. split; intros ? []. Qed.
End Best.
Lemma best_map {X Y} (tot : X -> nat) (tot' : Y -> nat) (f : X -> Y) l r k :
  (forall x, In x l -> tot' (f x) = k + tot x) -> best tot l r -> best tot' (map f l) (f r).
Proof.
  intros H (l1 & l2 & -> & H1 & H2). exists (map f l1), (map f l2). rewrite map_app. split; [reflexivity|].
  assert (Q : tot' (f r) = k + tot r) by (apply H, in_or_app; right; left; reflexivity).
  split; intros y Hy; apply in_map_iff in Hy as (x & <- & Hx); rewrite Q, H.
  - apply H1 in Hx. lia.
  - apply in_or_app. auto.
  - apply H2 in Hx. lia.
  - apply in_or_app. right. right. auto.
Qed.

Lemma prefix_le f s : prefix f s <= List.length s.
Proof. induction s as [|c s IH]; cbn; [lia|]. destruct (f c); lia. Qed.
Lemma find_prefix f s : find f s = Some 0 <-> prefix f s <> 0.
Proof. destruct s as [|c s]; cbn; [intuition congruence|]. destruct (f c); [intuition congruence|]. destruct (find f s); cbn; intuition congruence. Qed.
Lemma find_some f s d : find f s = Some d ->
  (exists c, nth_error s d = Some c /\ f c = true) /\ (forall k c, k < d -> nth_error s k = Some c -> f c = false).
Proof.
  revert d. induction s as [|c s IH]; cbn; intros d H; [discriminate|]. destruct (f c) eqn:F.
  - injection H as <-. split; [exists c; auto|]. intros k c' Hk. lia.
  - destruct (find f s) as [d'|]; [|discriminate]. injection H as <-. destruct (IH d' eq_refl) as [H1 H2]. split; [exact H1|].
    intros [|k] c' Hk H; cbn in H; [injection H as <-; auto|]. apply (H2 k); auto. lia.
Qed.
Lemma find_none f s : find f s = None -> forall k c, nth_error s k = Some c -> f c = false.
Proof.
  induction s as [|c s IH]; cbn; intros H [|k] c' Hk; cbn in Hk; try discriminate; destruct (f c) eqn:F; try discriminate.
  - congruence.
  - destruct (find f s); [discriminate|]. eauto.
Qed.

Section P.
Variable isdigit isspace : char -> bool.
Variable decimal : char -> option Z.
Hypothesis TC : tut_chars isdigit isspace.
Variables (s : list char) (at_ : nat -> loc).
Hypothesis AD : all_decimal isdigit decimal s.
Variables (m ins : Z).
Hypothesis Hins : ins <> 0%Z.
Notation rs A g i rem o := (rsem tut_E s at_ A g m i ins rem o).
Notation pre f i := (prefix f (skipn i s)).
Notation len := (List.length s).

Lemma nth_skipn (l : list char) i k : nth_error (skipn i l) k = nth_error l (i + k).
Proof. revert i. induction l as [|c l IH]; intros [|i]; cbn; auto. destruct k; reflexivity. Qed.
Lemma skip_cons i c t : skipn i s = c :: t -> nth_error s i = Some c /\ skipn (i + 1) s = t /\ i < len.
Proof.
  intros H. pose proof (nth_skipn s i 0) as N. rewrite H, Nat.add_0_r in N. cbn in N. split; auto.
  split; [|apply nth_error_Some; congruence]. change t with (skipn 1 (c :: t)). rewrite <- H. symmetry. apply skipn_skipn.
Qed.
Lemma skip_nil i : skipn i s = [] -> nth_error s i = None /\ len <= i.
Proof.
  intros H. pose proof (nth_skipn s i 0) as N. rewrite H, Nat.add_0_r in N. cbn in N. split; auto. apply nth_error_None. auto.
Qed.
Lemma pre_0 f i : pre f i = 0 -> forall c, nth_error s i = Some c -> f c = false.
Proof.
  intros H c Hc. pose proof (nth_skipn s i 0) as N. rewrite Nat.add_0_r, Hc in N. destruct (skipn i s) as [|c' t]; [discriminate|].
  injection N as ->. cbn in H. destruct (f c); [discriminate|reflexivity].
Qed.
Lemma pre_pos f i : pre f i <> 0 -> exists c, nth_error s i = Some c /\ f c = true /\ pre f i = S (pre f (i + 1)).
Proof.
  destruct (skipn i s) as [|c t] eqn:Q; cbn; [congruence|]. destruct (f c) eqn:F; [|congruence]. intros _.
  apply skip_cons in Q as (Q1 & Q2 & _). exists c. rewrite Q2. auto.
Qed.
Lemma many_run f (p : gram char tut_V char) Y X :
  (forall i c, nth_error s i = Some c -> f c = true -> rs _ p i None (RSucc c (i + 1) Y)) ->
  (forall i, (forall c, nth_error s i = Some c -> f c = false) -> rs _ p i None (RFail false (at_ i) X)) ->
  forall i rem, rs _ (GMany p) i rem (RSucc (firstn (pre f i) (skipn i s)) (i + pre f i) X).
Proof.
  intros H1 H2. assert (K : forall t i rem, skipn i s = t -> rs _ (GMany p) i rem (RSucc (firstn (prefix f t) t) (i + prefix f t) X)).
  2: { intros i rem. apply (K _ _ _ eq_refl). }
  induction t as [|c t IH]; intros i rem Q.
  - cbn. rewrite Nat.add_0_r. apply skip_nil in Q as [Q _]. eapply rs_many_stop. apply H2. congruence.
  - apply skip_cons in Q as (Q1 & Q2 & _). cbn [prefix]. destruct (f c) eqn:F.
    + replace (i + S (prefix f t)) with (i + 1 + prefix f t) by lia. cbn [firstn].
      apply (rs_many_more tut_E s at_ _ p m i ins rem c (i + 1) Y (RSucc (firstn (prefix f t) t) (i + 1 + prefix f t) X)); [lia| |].
      * apply H1; auto.
      * apply IH. exact Q2.
    + cbn. rewrite Nat.add_0_r. eapply rs_many_stop. apply H2. congruence.
Qed.
Lemma spaces_run i rem : rs _ (tut_spaces isspace) i rem (RSucc (firstn (pre isspace i) (skipn i s)) (i + pre isspace i) []).
Proof.
  apply (many_run isspace _ [] []).
  - intros j c H1 H2. apply rs_sat. split; [auto|]. rewrite H2. reflexivity.
  - intros j H. apply rs_sat_fail. intros c Hc. rewrite (H c Hc). reflexivity.
Qed.
Lemma digit_hit i c rem : nth_error s i = Some c -> isdigit c = true -> rs _ (tut_digit isdigit) i rem (RSucc c (i + 1) []).
Proof.
  intros H1 H2.
  assert (K : rs _ (GSatisfy (fun c => Ret (isdigit c))) i rem (RSucc c (i + 1) [])).
  { apply rs_sat. split; auto. rewrite H2. reflexivity. }
  apply (rs_label tut_E s at_ _ _ "digit"%string) in K. cbn [r_label] in K. rewrite (proj2 (Nat.ltb_lt i (i + 1))) in K by lia. exact K.
Qed.
Lemma digits_run i rem : rs _ (GMany (tut_digit isdigit)) i rem (RSucc (firstn (pre isdigit i) (skipn i s)) (i + pre isdigit i) ["digit"%string]).
Proof.
  apply (many_run isdigit _ []).
  - intros j c. apply digit_hit.
  - intros j H. refine (rs_label tut_E s at_ _ _ "digit"%string m j ins None (RFail false (at_ j) []) _).
    apply rs_sat_fail. intros c Hc. rewrite (H c Hc). reflexivity.
Qed.

Lemma value_ret x : (forall c, In c x -> In c s /\ isdigit c = true) -> int_text decimal x = Ret (value decimal x).
Proof.
  unfold int_text, value.
  assert (K : forall a, (forall c, In c x -> In c s /\ isdigit c = true) -> fold_left (int_step decimal) x (Ret a) =
    Ret (fold_left (fun a c => (10 * a + match decimal c with Some d => d | None => 0 end)%Z) x a)).
  2: { apply K. }
  induction x as [|c x IH]; intros a H; [reflexivity|].
  destruct (H c (or_introl eq_refl)) as [H1 H2]. pose proof (AD c H1 H2) as D.
  assert (Q : int_step decimal (Ret a) c = Ret (10 * a + match decimal c with Some d => d | None => 0 end)%Z).
  { unfold int_step. destruct (decimal c); [reflexivity|congruence]. }
  cbn [fold_left]. rewrite Q. apply IH. intros c' Hc. apply H. right. exact Hc.
Qed.
Lemma in_prefix f (t : list char) c : In c (firstn (prefix f t) t) -> f c = true.
Proof. induction t as [|c' t IH]; cbn; [tauto|]. destruct (f c') eqn:F; cbn; [|tauto]. intros [<-|H]; auto. Qed.
Lemma in_skipn_s i c : In c (skipn i s) -> In c s.
Proof. intros H. rewrite <- (firstn_skipn i s). apply in_or_app. auto. Qed.
Lemma firstn_in {X} k (l : list X) c : In c (firstn k l) -> In c l.
Proof. intros H. rewrite <- (firstn_skipn k l). apply in_or_app. auto. Qed.
Lemma number_text i c : nth_error s i = Some c -> isdigit c = true ->
  int_text decimal (c :: firstn (pre isdigit (i + 1)) (skipn (i + 1) s)) = Ret (value decimal (firstn (pre isdigit i) (skipn i s))) /\
  pre isdigit i = S (pre isdigit (i + 1)).
Proof.
  intros H1 H2. pose proof (nth_skipn s i 0) as N. rewrite Nat.add_0_r, H1 in N. destruct (skipn i s) as [|c' t] eqn:Q; [discriminate|].
  injection N as ->. apply skip_cons in Q as (_ & Q & _). rewrite Q. cbn [prefix]. rewrite H2. split; [|reflexivity].
  cbn [firstn]. apply value_ret. intros c' [<-|Hc].
  - split; auto. apply nth_error_In in H1. exact H1.
  - split; [apply firstn_in in Hc; rewrite <- Q in Hc; apply in_skipn_s in Hc; exact Hc|apply in_prefix in Hc; exact Hc].
Qed.

(** ** A number *)
(** where it ends, with the white space behind it; what could continue it *)
Definition num_digits (i : nat) : nat := pre isdigit i.
Definition num_end (i : nat) : nat := i + pre isdigit i + pre isspace (i + pre isdigit i).
Definition num_value (i : nat) : Z := value decimal (firstn (pre isdigit i) (skipn i s)).
Definition num_pend (i : nat) : list string := if pre isspace (i + pre isdigit i) =? 0 then ["digit"%string] else [].

Lemma number_read i rem : pre isdigit i <> 0 ->
  rs _ (tut_number isdigit isspace decimal) i rem (RSucc (num_value i) (num_end i) (num_pend i)).
Proof.
  intros H. destruct (pre_pos _ _ H) as (c & H1 & H2 & _). destruct (number_text i c H1 H2) as [Ht Hp].
  assert (K : rs _ (GFmap (tut_digits isdigit) (fun v => int_text decimal (fst v :: snd v))) i rem
    (RSucc (num_value i) (i + pre isdigit i) ["digit"%string])).
  { pose proof (rs_seq tut_E s at_ _ _ _ _ _ (fun l r => (l, r)) _ _ _ rem _ _ _ _ (digit_hit i c rem H1 H2)
      (digits_run (i + 1) (if i <? i + 1 then Some ins else rem))) as K.
    cbn [r_after on_rvalue] in K. replace (i + 1 + pre isdigit (i + 1)) with (i + pre isdigit i) in K by lia.
    replace (if i + 1 <? i + pre isdigit i then ["digit"%string] else [] ++ ["digit"%string]) with (["digit"%string]) in K by (destruct (i + 1 <? _); reflexivity).
    eapply rs_fmap; [exact K|]. exact Ht. }
  apply (rs_label tut_E s at_ _ _ "number"%string) in K. cbn [r_label] in K.
  rewrite (proj2 (Nat.ltb_lt i (i + pre isdigit i))) in K by lia.
  pose proof (rs_seq tut_E s at_ _ _ _ _ _ (fun l _ => l) _ _ _ rem _ _ _ _ K
      (spaces_run (i + pre isdigit i) (if i <? i + pre isdigit i then Some ins else rem))) as K2.
  cbn [r_after on_rvalue] in K2.
  replace (if i + pre isdigit i <? i + pre isdigit i + pre isspace (i + pre isdigit i) then [] else ["digit"%string] ++ []) with (num_pend i) in K2; [exact K2|].
  unfold num_pend. destruct (Nat.eqb_spec (pre isspace (i + pre isdigit i)) 0) as [Q|Q].
  - rewrite Q, Nat.add_0_r, Nat.ltb_irrefl. reflexivity.
  - rewrite (proj2 (Nat.ltb_lt _ _)) by lia. reflexivity.
Qed.
Lemma number_none i : pre isdigit i = 0 -> rs _ (tut_number isdigit isspace decimal) i None (RFail false (at_ i) ["number"%string]).
Proof.
  intros H. apply rs_seq_fail. refine (rs_label tut_E s at_ _ _ "number"%string m i ins None (RFail false (at_ i) ["digit"%string]) _).
  apply rs_fmap_fail, rs_seq_fail. refine (rs_label tut_E s at_ _ _ "digit"%string m i ins None (RFail false (at_ i) []) _).
  apply rs_sat_fail. intros c Hc. rewrite (pre_0 _ _ H c Hc). reflexivity.
Qed.
Lemma number_nowhere i left : find isdigit (skipn i s) = None ->
  rs _ (tut_number isdigit isspace decimal) i (Some left) (RFail false (at_ i) ["number"%string]).
Proof.
  intros H. assert (H0 : forall k c, i <= k -> nth_error s k = Some c -> isdigit c = false).
  { intros k c Hk Hc. apply (find_none _ _ H (k - i)). rewrite nth_skipn. replace (i + (k - i)) with k by lia. exact Hc. }
  apply rs_seq_fail. refine (rs_label tut_E s at_ _ _ "number"%string m i ins _ (RFail false (at_ i) ["digit"%string]) _).
  apply rs_fmap_fail, rs_seq_fail. refine (rs_label tut_E s at_ _ _ "digit"%string m i ins _ (RFail false (at_ i) []) _).
  apply rs_sat_none.
  - intros c Hc. rewrite (H0 i c); auto.
  - intros k Hk c Hc. rewrite (H0 k c); auto. lia.
Qed.
Lemma seq_offer1 A B C (p : gram char tut_V A) (q : gram char tut_V B) (merge : A -> B -> C) i rem n b l X (r : offer A) w j Y :
  rs _ p i rem (ROffer n b l X [r]) -> rs _ q (f_pos r) (Some (f_left r)) (RSucc w j Y) ->
  rs _ (GSeq p q merge) i rem (ROffer n b l X [f_then_succ ins merge r w j Y]).
Proof.
  intros H H'. eapply rs_seq_offer; [exact H|]. apply (rc_succ tut_E s at_ _ _ _ (fun _ => q)); [exact H'|apply rc_nil].
Qed.
(** skipping to the next digit, and reading the number there *)
Definition num_skip (i d : nat) : offer Z :=
  {| f_cost := d; f_rank := Some 0; f_left := ins; f_ops := one_op (Skip d) (at_ i) ["number"%string];
     f_val := num_value (i + d); f_pos := num_end (i + d); f_exp := num_pend (i + d); f_con := true |}.
Lemma number_later i left d : find isdigit (skipn i s) = Some d -> d <> 0 ->
  rs _ (tut_number isdigit isspace decimal) i (Some left) (ROffer (Some d) false (at_ i) ["number"%string] [num_skip i d]).
Proof.
  intros H Hd. destruct (find_some _ _ _ H) as [(c & H1 & H2) H3]. rewrite nth_skipn in H1.
  destruct (number_text (i + d) c H1 H2) as [Ht Hp].
  assert (K : rs _ (tut_digit isdigit) i (Some left) (ROffer (Some d) false (at_ i) ["digit"%string]
    [{| f_cost := d; f_rank := Some 0; f_left := ins; f_ops := one_op (Skip d) (at_ i) ["digit"%string];
        f_val := c; f_pos := i + d + 1; f_exp := []; f_con := true |}])).
  { replace d with (i + d - i) at 1 2 3 by lia.
    refine (rs_label tut_E s at_ _ _ "digit"%string m i ins (Some left) (ROffer (Some (i + d - i)) false (at_ i) [] [f_skip ins c (i + d + 1) (at_ i) (i + d - i) [] true]) _).
    apply rs_sat_skip.
    - intros x Hx. rewrite (H3 0 x); auto; [lia|]. rewrite nth_skipn, Nat.add_0_r. exact Hx.
    - split; [split; [lia|]|split].
      + apply nth_error_Some. congruence.
      + split; [exact H1|]. rewrite H2. reflexivity.
      + intros k Hk x Hx. rewrite (H3 (k - i) x); auto; [lia|]. rewrite nth_skipn. replace (i + (k - i)) with k by lia. exact Hx. }
  pose proof (seq_offer1 _ _ _ _ (GMany (tut_digit isdigit)) (fun l r => (l, r)) _ _ _ _ _ _ _ _ _ _ K (digits_run (i + d + 1) (Some ins))) as K2.
  unfold f_then_succ in K2. cbn [f_cost f_rank f_left f_ops f_val f_pos f_exp f_con] in K2.
  replace (if (i + d + 1 =? i + d + 1 + pre isdigit (i + d + 1)) then ins else ins) with ins in K2 by (destruct (_ =? _); reflexivity).
  replace (if i + d + 1 <? i + d + 1 + pre isdigit (i + d + 1) then ["digit"%string] else [] ++ ["digit"%string]) with (["digit"%string]) in K2 by (destruct (_ <? _); reflexivity).
  cbn [orb] in K2. replace (i + d + 1 + pre isdigit (i + d + 1)) with (i + d + pre isdigit (i + d)) in K2 by lia.
  eapply (rs_fmap_offer tut_E s at_ _ _ _ (fun v => int_text decimal (fst v :: snd v))) in K2; [|cbn [f_map f_val fst snd]; rewrite Ht; reflexivity].
  apply (rs_label tut_E s at_ _ _ "number"%string) in K2. cbn [r_label map] in K2.
  pose proof (seq_offer1 _ _ _ _ (tut_spaces isspace) (fun l _ => l) _ _ _ _ _ _ _ _ _ _ K2 (spaces_run (i + d + pre isdigit (i + d)) (Some ins))) as K3.
  unfold f_then_succ, f_rename, f_with in K3. cbn [f_cost f_rank f_left f_ops f_val f_pos f_exp f_con orb map one_op op_rename op_con op_op op_loc] in K3.
  match type of K3 with rsem _ _ _ _ _ _ _ _ _ (ROffer _ _ _ _ [?y]) => replace y with (num_skip i d) in K3; [exact K3|] end.
  unfold num_skip, num_end, num_value, num_pend. f_equal.
  - destruct (_ =? _); reflexivity.
  - destruct (Nat.eqb_spec (pre isspace (i + d + pre isdigit (i + d))) 0) as [Q|Q].
    + rewrite Q, Nat.add_0_r, Nat.ltb_irrefl. reflexivity.
    + rewrite (proj2 (Nat.ltb_lt _ _)) by lia. reflexivity.
Qed.

(** ** An item: a number, or its placeholder *)
Notation item := (tut_item isdigit isspace decimal).
Lemma item_read i rem : pre isdigit i <> 0 -> rs _ item i rem (RSucc (num_value i) (num_end i) (num_pend i)).
Proof.
  intros H. destruct rem as [lf|]; [apply rs_with_off; [apply number_read; exact H|left; exact I]|apply rs_with_none, number_read, H].
Qed.
Lemma item_none i : pre isdigit i = 0 -> rs _ item i None (RFail false (at_ i) ["number"%string]).
Proof. intros H. apply rs_with_none, number_none, H. Qed.
Definition zero (left : Z) (i : nat) : offer Z := f_insert (Some 0) left 0%Z i (at_ i) "0"%string ["number"%string].
Lemma item_nowhere i left : left <> 0%Z -> find isdigit (skipn i s) = None ->
  rs _ item i (Some left) (ROffer None false (at_ i) [] [zero left i]).
Proof. intros Hl H. apply (rs_with_fail tut_E s at_ _ _ _ _ _ _ _ _ (at_ i)); [apply number_nowhere; exact H|exact Hl]. Qed.
Lemma item_later i left d : left <> 0%Z -> find isdigit (skipn i s) = Some d -> d <> 0 ->
  rs _ item i (Some left) (ROffer (Some d) false (at_ i) ["number"%string] [zero left i; num_skip i d]).
Proof. intros Hl H Hd. apply (rs_with_offer tut_E s at_ _ _ _ _ _ _ _ _ _ (at_ i)); [apply number_later; auto|exact Hl]. Qed.

(** ** A comma and an item *)
Notation comma := (tut_comma isspace).
Lemma comma_read i rem : nth_error s i = Some 44%N -> exists w, rs _ comma i rem (RSucc w (i + 1 + pre isspace (i + 1)) []).
Proof.
  intros H. exists 44%N.
  assert (K : rs _ (GSym N.eqb 44%N "','"%string) i rem (RSucc 44%N (i + 1) [])) by (apply rs_sym; split; [exact H|reflexivity]).
  pose proof (rs_seq tut_E s at_ _ _ _ _ _ (fun l _ => l) _ _ _ rem _ _ _ _ K (spaces_run (i + 1) (if i <? i + 1 then Some ins else rem))) as K2.
  cbn [r_after on_rvalue] in K2. replace (if i + 1 <? i + 1 + pre isspace (i + 1) then [] else [] ++ []) with (@nil string) in K2 by (destruct (_ <? _); reflexivity).
  exact K2.
Qed.
Definition sep_end (i : nat) : nat := i + 1 + pre isspace (i + 1).
Notation sep_item := (seqr comma item).
Lemma sep_after i o : nth_error s i = Some 44%N -> rs _ item (sep_end i) (Some ins) o ->
  rs _ sep_item i None (on_rvalue (fun r => r) (r_after i (sep_end i) [] o)).
Proof.
  intros H Ho. destruct (comma_read i None H) as [w Hw]. fold (sep_end i) in Hw.
  pose proof (rs_seq tut_E s at_ _ _ _ _ item (fun _ r => r) _ _ _ None _ _ _ o Hw) as K.
  assert (L : i <? sep_end i = true) by (apply Nat.ltb_lt; unfold sep_end; lia). rewrite L in K. specialize (K Ho). exact K.
Qed.
Definition op_of (x : mistake) : opitem := {| op_op := mk_op x; op_loc := at_ (mk_pos x); op_exp := mk_exp x; op_con := true |}.
Definition m_zero (q : nat) : mistake := {| mk_pos := q; mk_op := Insert "0"; mk_exp := ["number"%string] |}.
Definition m_skip (q d : nat) : mistake := {| mk_pos := q; mk_op := Skip d; mk_exp := ["number"%string] |}.
Definition zero_at (q : nat) : offer Z :=
  {| f_cost := 1; f_rank := Some 0; f_left := (ins - 1)%Z; f_ops := [op_of (m_zero q)]; f_val := 0%Z; f_pos := q; f_exp := []; f_con := true |}.
Definition skip_at (q d : nat) : offer Z :=
  {| f_cost := d; f_rank := Some 0; f_left := ins; f_ops := [op_of (m_skip q d)]; f_val := num_value (q + d);
     f_pos := num_end (q + d); f_exp := num_pend (q + d); f_con := true |}.
Lemma sep_read i : nth_error s i = Some 44%N -> pre isdigit (sep_end i) <> 0 ->
  rs _ sep_item i None (RSucc (num_value (sep_end i)) (num_end (sep_end i)) (num_pend (sep_end i))).
Proof.
  intros H Hd. pose proof (sep_after i _ H (item_read (sep_end i) (Some ins) Hd)) as K. cbn [r_after on_rvalue app] in K.
  destruct (sep_end i <? num_end (sep_end i)); exact K.
Qed.
Lemma sep_ltb i : i <? sep_end i = true.
Proof. apply Nat.ltb_lt; unfold sep_end; lia. Qed.
Lemma sep_nowhere i : nth_error s i = Some 44%N -> find isdigit (skipn (sep_end i) s) = None ->
  exists l X, rs _ sep_item i None (ROffer None true l X [zero_at (sep_end i)]).
Proof.
  intros H Hd. pose proof (sep_after i _ H (item_nowhere (sep_end i) ins Hins Hd)) as K. cbn [r_after on_rvalue] in K.
  rewrite sep_ltb in K. eexists _, _. exact K.
Qed.
Lemma sep_later i d : nth_error s i = Some 44%N -> find isdigit (skipn (sep_end i) s) = Some d -> d <> 0 ->
  exists l X, rs _ sep_item i None (ROffer (Some d) true l X [zero_at (sep_end i); skip_at (sep_end i) d]).
Proof.
  intros H Hd Hn. pose proof (sep_after i _ H (item_later (sep_end i) ins d Hins Hd Hn)) as K. cbn [r_after on_rvalue] in K.
  rewrite sep_ltb in K. eexists _, _. exact K.
Qed.
Lemma sep_stop i : nth_error s i <> Some 44%N -> rs _ sep_item i None (RFail false (at_ i) ["','"%string]).
Proof.
  intros H. apply rs_seq_fail, rs_seq_fail, rs_sym_fail. intros t Ht. apply N.eqb_neq. intros ->. exact (H Ht).
Qed.

(** ** The rest of the list *)
Definition leftover (j : nat) (Y : list string) : list mistake :=
  if j =? len then [] else [{| mk_pos := j; mk_op := Skip (len - j); mk_exp := Y ++ ["end of file"%string] |}].
Lemma leftover_price j Y : j <= len -> prices (leftover j Y) = len - j.
Proof. intros H. unfold leftover. destruct (Nat.eqb_spec j len); cbn; lia. Qed.
Lemma prices_app a b : prices (a ++ b) = prices a + prices b.
Proof. unfold prices. rewrite map_app, list_sum_app. reflexivity. Qed.
Definition total {A} (r : offer A) : nat := f_cost r + (len - f_pos r).
Definition fine {A} (r : offer A) : Prop :=
  f_rank r = Some 0 /\ f_con r = true /\ Forall (fun o => op_con o = true) (f_ops r) /\ f_pos r <= len.
(** the chosen repair, and the mistakes it reports *)
Definition meets {A} (L : list (offer A)) (r : offer A) (ms : list mistake) : Prop :=
  best total L r /\ (forall x, In x L -> fine x) /\ f_ops r = map op_of ms /\ (f_cost r = prices ms /\ ms <> []).
Notation readings := (readings isdigit isspace decimal).
Definition tail_ok (i : nat) (o : rres (list Z)) : Prop :=
  match o with
  | RSucc vs j Y => Y = ["','"%string] /\ i <= j <= len /\
      forall n X, len - i <= n -> readings n i X (skipn i s) = (vs, leftover j (if i <? j then Y else X ++ Y))
  | ROffer _ _ _ _ L => exists r ms, meets L r ms /\
      forall n X, len - i <= n -> readings n i X (skipn i s) = (f_val r, ms ++ leftover (f_pos r) (f_exp r))
  | _ => False
  end.
Lemma meets_total {A} (L : list (offer A)) r ms : meets L r ms -> f_pos r <= len -> total r = prices (ms ++ leftover (f_pos r) (f_exp r)).
Proof. intros (_ & _ & _ & H & _) Hp. unfold total. rewrite prices_app, leftover_price, H by exact Hp. reflexivity. Qed.
Lemma meets_fine {A} (L : list (offer A)) r ms : meets L r ms -> fine r.
Proof. intros ((l1 & l2 & -> & _) & H & _). apply H, in_or_app. right. left. reflexivity. Qed.
Lemma closed_after b X l : Forall (fun o => op_con o = true) l -> map (op_after b X) l = l.
Proof. induction 1 as [|o l H _ IH]; cbn; [reflexivity|]. rewrite IH. unfold op_after. rewrite H. reflexivity. Qed.

(** an item that was mended, followed by the rest of the list *)
Notation rest := (GMany sep_item).
Lemma contrib (r : offer Z) (m0 : mistake) o : f_rank r = Some 0 -> f_con r = true -> f_ops r = [op_of m0] -> f_cost r = price m0 ->
  f_pos r <= len -> rs _ rest (f_pos r) (Some (f_left r)) o -> tail_ok (f_pos r) o ->
  exists L r' ms,
    (forall fs fs', rconts tut_E s at_ _ _ _ (fun _ => rest) cons m ins fs (inl fs') ->
       rconts tut_E s at_ _ _ _ (fun _ => rest) cons m ins (r :: fs) (inl (L ++ fs'))) /\
    meets L r' (m0 :: ms) /\
    forall n, len - f_pos r <= n -> exists l, f_val r' = f_val r :: l /\
      readings n (f_pos r) (f_exp r) (skipn (f_pos r) s) = (l, ms ++ leftover (f_pos r') (f_exp r')).
Proof.
  intros R1 R2 R3 R4 R5 Ho Hok. destruct o as [vs j Y|b l Y|nr b l Y L|e]; try (destruct Hok; fail); cbn [tail_ok] in Hok.
  - destruct Hok as (-> & Hj & Hr). exists [f_then_succ ins cons r vs j ["','"%string]], (f_then_succ ins cons r vs j ["','"%string]), [].
    split; [|split].
    + intros fs fs' H. apply rc_succ; auto.
    + split; [apply best_one|]. split; [|split].
      * intros x [<-|[]]. repeat split; cbn; auto; [rewrite R2; reflexivity|rewrite R3; repeat constructor|lia].
      * cbn. exact R3.
      * cbn. rewrite R4. split; [lia|discriminate].
    + intros n Hn. exists vs. split; [reflexivity|]. rewrite Hr by lia. reflexivity.
  - destruct Hok as (r' & ms & Hm & Hr). exists (map (f_then_repair cons r) L), (f_then_repair cons r r'), ms.
    split; [|split].
    + intros fs fs' H. eapply rc_offer; eauto.
    + pose proof (meets_fine _ _ _ Hm) as Hf. destruct Hm as (M1 & M2 & M3 & M4). split; [|split; [|split]].
      * apply (best_map total total _ _ _ (f_cost r)); auto. intros x _. unfold total. cbn. lia.
      * intros x Hx. apply in_map_iff in Hx as (y & <- & Hy). destruct (M2 y Hy) as (Y1 & Y2 & Y3 & Y4). repeat split; cbn -[map]; auto.
        { rewrite R2. reflexivity. }
        { rewrite R3. cbn [app]. constructor; [reflexivity|]. rewrite closed_after; auto. }
      * cbn -[map]. rewrite R3. cbn [app map]. f_equal. rewrite <- M3. apply closed_after. apply Hf.
      * cbn -[prices]. destruct M4 as [M4 _]. rewrite M4, R4. split; [reflexivity|discriminate].
    + intros n Hn. exists (f_val r'). split; [reflexivity|]. rewrite Hr by lia. cbn. destruct (meets_fine _ _ _ Hm) as (_ & -> & _). reflexivity.
Qed.

Lemma skipn_add i k : skipn k (skipn i s) = skipn (i + k) s.
Proof. apply skipn_skipn. Qed.
Lemma pre_end f i : i <= len -> i + pre f i <= len.
Proof. intros H. pose proof (prefix_le f (skipn i s)). rewrite skipn_length in *. lia. Qed.
Lemma num_end_le i : i <= len -> num_end i <= len.
Proof. intros H. unfold num_end. apply pre_end, pre_end, H. Qed.

(** what the specification says behind a comma *)
Lemma readings_comma n i X : nth_error s i = Some 44%N ->
  let q := sep_end i in
  let number d := let (l, e) := readings n (num_end (q + d)) (if 0 <? d then num_pend (q + d) else []) (skipn (num_end (q + d)) s) in
    (num_value (q + d) :: l, e) in
  readings (S n) i X (skipn i s) =
  match find isdigit (skipn q s) with
  | Some 0 => number 0
  | d =>
      let (l, e) := readings n q [] (skipn q s) in
      let insert := (0%Z :: l, m_zero q :: e) in
      match d with
      | None => insert
      | Some d => let (l, e) := number d in let skip := (l, m_skip q d :: e) in
          if prices (snd skip) <? prices (snd insert) then skip else insert
      end
  end.
Proof.
  intros H q number. pose proof (nth_skipn s i 0) as N. rewrite Nat.add_0_r, H in N.
  destruct (skipn i s) as [|c t] eqn:Q; [discriminate|]. injection N as ->. apply skip_cons in Q as (_ & <- & _).
  cbn [TutorialSpec.readings]. rewrite skipn_add. fold (sep_end i). fold q.
  assert (NQ : forall d, (let k := prefix isdigit (skipn d (skipn q s)) in
        let u := skipn (d + k) (skipn q s) in
        let w' := prefix isspace u in
        let (l, e) := readings n (q + d + k + w') (if (0 <? d) && (w' =? 0) then ["digit"%string] else []) (skipn w' u) in
        (value decimal (firstn k (skipn d (skipn q s))) :: l, e)) = number d).
  { intros d. cbv zeta. rewrite !skipn_add. unfold number. replace (q + (d + prefix isdigit (skipn (q + d) s))) with (q + d + prefix isdigit (skipn (q + d) s)) by lia.
    fold (num_end (q + d)). unfold num_pend, num_value.
    replace (if (0 <? d) && (prefix isspace (skipn (q + d + prefix isdigit (skipn (q + d) s)) s) =? 0) then ["digit"%string] else []) with
      (if 0 <? d then if prefix isspace (skipn (q + d + prefix isdigit (skipn (q + d) s)) s) =? 0 then ["digit"%string] else [] else []); [reflexivity|].
    destruct (0 <? d); reflexivity. }
  cbv zeta in NQ. destruct (find isdigit (skipn q s)) as [[|d]|] eqn:F.
  - rewrite <- (NQ 0). reflexivity.
  - rewrite <- (NQ (S d)). reflexivity.
  - reflexivity.
Qed.
Lemma readings_stop n i X : nth_error s i <> Some 44%N -> i <= len -> readings n i X (skipn i s) = ([], leftover i (X ++ ["','"%string])).
Proof.
  intros H Hi. unfold leftover. destruct (skipn i s) as [|c t] eqn:Q.
  - apply skip_nil in Q as [_ Q]. replace (i =? len) with true by (symmetry; apply Nat.eqb_eq; lia). destruct n; reflexivity.
  - pose proof (skip_cons _ _ _ Q) as (Q1 & _ & Q2). replace (i =? len) with false by (symmetry; apply Nat.eqb_neq; lia).
    assert (L : len - i = List.length (c :: t)) by (rewrite <- Q, skipn_length; reflexivity). rewrite L, <- app_assoc.
    assert (C : c <> 44%N) by (intros ->; exact (H Q1)). destruct n; [reflexivity|]. cbn [TutorialSpec.readings].
    destruct c as [|c]; [reflexivity|]. do 6 (destruct c as [c|c|]; try reflexivity). congruence.
Qed.

Theorem rest_ok : forall i, i <= len -> exists o, tail_ok i o /\ forall rem, rs _ rest i rem o.
Proof.
  assert (K : forall k i, len - i <= k -> i <= len -> exists o, tail_ok i o /\ forall rem, rs _ rest i rem o).
  2: { intros i Hi. apply (K (len - i)); auto. }
  induction k as [|k IH]; intros i Hk Hi.
  { assert (i = len) by lia. subst i. assert (N : nth_error s len <> Some 44%N) by (rewrite (proj2 (nth_error_None s len)); [discriminate|lia]).
    exists (RSucc [] len ["','"%string]). split.
    - split; [reflexivity|]. split; [lia|]. intros n X _. rewrite Nat.ltb_irrefl. apply readings_stop; auto.
    - intros rem. eapply rs_many_stop, sep_stop, N. }
  destruct (nth_error s i) as [c|] eqn:N; [destruct (N.eqb_spec c 44) as [->|C]|].
  2: { exists (RSucc [] i ["','"%string]). assert (N' : nth_error s i <> Some 44%N) by (rewrite N; intros Q; injection Q as Q; exact (C Q)). split.
    - split; [reflexivity|]. split; [lia|]. intros n X _. rewrite Nat.ltb_irrefl. apply readings_stop; auto.
    - intros rem. eapply rs_many_stop, sep_stop, N'. }
  2: { exists (RSucc [] i ["','"%string]). assert (N' : nth_error s i <> Some 44%N) by (rewrite N; discriminate). split.
    - split; [reflexivity|]. split; [lia|]. intros n X _. rewrite Nat.ltb_irrefl. apply readings_stop; auto.
    - intros rem. eapply rs_many_stop, sep_stop, N'. }
  assert (Hi' : i < len) by (apply nth_error_Some; congruence).
  assert (Hq : i < sep_end i <= len) by (unfold sep_end; split; [lia|apply pre_end; lia]).
  destruct (find isdigit (skipn (sep_end i) s)) as [[|d]|] eqn:F.
  - (* read *)
    assert (P : pre isdigit (sep_end i) <> 0) by (apply find_prefix; exact F).
    pose proof (sep_read i N P) as HS. pose proof (num_end_le (sep_end i) ltac:(lia)) as HL.
    assert (HG : sep_end i < num_end (sep_end i)) by (unfold num_end; lia).
    destruct (IH (num_end (sep_end i)) ltac:(lia) HL) as (o & Ho & Hr).
    exists (on_rvalue (cons (num_value (sep_end i))) o). split.
    2: { intros rem. eapply rs_many_more; [|exact HS|apply Hr]. lia. }
    destruct o as [vs j Y|b l Y|nr b l Y L|e]; cbn [on_rvalue tail_ok] in *; try tauto.
    + destruct Ho as (-> & Hj & Hrd). split; [reflexivity|]. split; [lia|]. intros n X Hn. destruct n as [|n]; [lia|].
      rewrite (readings_comma n i X N). cbv zeta. rewrite F, Nat.add_0_r. change (0 <? 0) with false. cbv iota. rewrite (Hrd n []) by lia.
      rewrite (proj2 (Nat.ltb_lt i j)) by lia. destruct (num_end (sep_end i) <? j); reflexivity.
    + destruct Ho as (r & ms & Hm & Hrd). exists (f_with r (num_value (sep_end i) :: f_val r)), ms. split.
      * destruct Hm as (M1 & M2 & M3 & M4). split; [|split; [|split]]; auto.
        { apply (best_map total total (fun r => f_with r (num_value (sep_end i) :: f_val r)) _ _ 0); auto. }
        { intros x Hx. apply in_map_iff in Hx as (y & <- & Hy). destruct (M2 y Hy) as (Y1 & Y2 & Y3 & Y4). repeat split; auto. }
      * intros n X Hn. destruct n as [|n]; [lia|].
        rewrite (readings_comma n i X N). cbv zeta. rewrite F, Nat.add_0_r. change (0 <? 0) with false. cbv iota. rewrite (Hrd n []) by lia. reflexivity.
  - (* missing, but there is a number later *)
    destruct (sep_later i (S d) N F ltac:(lia)) as (l & X0 & HS).
    destruct (find_some _ _ _ F) as [(c & F1 & F2) _]. rewrite nth_skipn in F1.
    assert (HD : sep_end i + S d < len) by (apply nth_error_Some; congruence).
    pose proof (num_end_le (sep_end i + S d) ltac:(lia)) as HL.
    assert (HG : sep_end i + S d <= num_end (sep_end i + S d)) by (unfold num_end; lia).
    destruct (IH (sep_end i) ltac:(lia) ltac:(lia)) as (oz & Hoz & Hrz).
    destruct (IH (num_end (sep_end i + S d)) ltac:(lia) HL) as (os & Hos & Hrs).
    destruct (contrib (zero_at (sep_end i)) (m_zero (sep_end i)) oz) as (L1 & r1 & ms1 & C1 & M1 & V1); auto; [cbn; lia|].
    destruct (contrib (skip_at (sep_end i) (S d)) (m_skip (sep_end i) (S d)) os) as (L2 & r2 & ms2 & C2 & M2 & V2); auto.
    pose proof (C1 _ _ (C2 _ _ (rc_nil _ _ _ _ _ _ _ _ _ _))) as CC. rewrite app_nil_r in CC.
    exists (ROffer (Some (S d)) true l X0 (L1 ++ L2)). split.
    2: { intros rem. eapply rs_many_offer; [exact HS|exact CC]. }
    pose proof (meets_total _ _ _ M1 ltac:(apply (meets_fine _ _ _ M1))) as T1. pose proof (meets_total _ _ _ M2 ltac:(apply (meets_fine _ _ _ M2))) as T2.
    exists (if total r2 <? total r1 then r2 else r1), (if total r2 <? total r1 then m_skip (sep_end i) (S d) :: ms2 else m_zero (sep_end i) :: ms1). split.
    + destruct M1 as (B1 & G1 & O1 & P1), M2 as (B2 & G2 & O2 & P2). split; [apply best_app; auto|]. split; [|split].
      * intros x Hx. apply in_app_or in Hx as [Hx|Hx]; auto.
      * destruct (_ <? _); auto.
      * destruct (_ <? _); auto.
    + intros n X Hn. destruct n as [|n]; [lia|]. rewrite (readings_comma n i X N). cbv zeta. rewrite F. change (0 <? S d) with true. cbv iota.
      destruct (V1 n ltac:(cbn; lia)) as (l1 & W1 & W1'). destruct (V2 n ltac:(cbn; lia)) as (l2 & W2 & W2'). cbn [zero_at skip_at f_pos f_exp f_val] in *.
      rewrite W1', W2'. cbn [snd]. rewrite T1, T2. cbn [app].
      destruct (_ <? _); rewrite ?W1, ?W2; reflexivity.
  - (* missing, no number later *)
    destruct (sep_nowhere i N F) as (l & X0 & HS).
    destruct (IH (sep_end i) ltac:(lia) ltac:(lia)) as (oz & Hoz & Hrz).
    destruct (contrib (zero_at (sep_end i)) (m_zero (sep_end i)) oz) as (L1 & r1 & ms1 & C1 & M1 & V1); auto; [cbn; lia|].
    pose proof (C1 _ _ (rc_nil _ _ _ _ _ _ _ _ _ _)) as CC. rewrite app_nil_r in CC.
    exists (ROffer None true l X0 L1). split.
    2: { intros rem. eapply rs_many_offer; [exact HS|exact CC]. }
    exists r1, (m_zero (sep_end i) :: ms1). split; auto.
    intros n X Hn. destruct n as [|n]; [lia|]. rewrite (readings_comma n i X N). cbv zeta. rewrite F.
    destruct (V1 n ltac:(cbn; lia)) as (l1 & W1 & W1'). cbn [zero_at f_pos f_exp f_val] in *. rewrite W1', W1. reflexivity.
Qed.

(** ** The whole list *)
Lemma fine_after {A} b X (r : offer A) : fine r -> f_after b X r = r.
Proof.
  intros (H1 & H2 & H3 & _). destruct r as [c rk lf ops v p e con]. cbn in *. subst con. unfold f_after. cbn. rewrite closed_after; auto.
Qed.
Lemma fine_after_all {A} b X (L : list (offer A)) : (forall x, In x L -> fine x) -> map (f_after b X) L = L.
Proof.
  induction L as [|r L IH]; intros H; [reflexivity|]. cbn [map]. rewrite fine_after by (apply H; left; reflexivity).
  rewrite IH; [reflexivity|]. intros x Hx. apply H. right. exact Hx.
Qed.
Notation reading := (reading isdigit isspace decimal).
(** the outcome before the end of file is demanded *)
Definition list_ok (o : rres (list Z)) : Prop :=
  match o with
  | RSucc vs j Y => j <= len /\ reading s = (vs, leftover j Y)
  | ROffer _ _ _ _ L => exists r ms, meets L r ms /\ reading s = (f_val r, ms ++ leftover (f_pos r) (f_exp r))
  | _ => False
  end.
Notation items := (sep_by item comma).
Lemma f_map_ret {A B} (f : A -> B) (L : list (offer A)) : f_map (fun v => Ret (f v)) L = Ret (map (fun r => f_with r (f (f_val r))) L).
Proof. induction L as [|r L IH]; [reflexivity|]. cbn [f_map map]. rewrite IH. reflexivity. Qed.
Lemma meets_with {A B} (f : A -> B) (L : list (offer A)) r ms : meets L r ms -> meets (map (fun r => f_with r (f (f_val r))) L) (f_with r (f (f_val r))) ms.
Proof.
  intros (M1 & M2 & M3 & M4). split; [|split; [|split]]; auto.
  - apply (best_map total total (fun r => f_with r (f (f_val r))) _ _ 0); auto.
  - intros x Hx. apply in_map_iff in Hx as (y & <- & Hy). destruct (M2 y Hy) as (Y1 & Y2 & Y3 & Y4). repeat split; auto.
Qed.
Lemma whole_list rem : rem <> None -> exists o, list_ok o /\ rs _ (seqr (tut_spaces isspace) items) 0 rem o.
Proof.
  intros Hrem. set (w := prefix isspace s). assert (Hw : w <= len) by (apply (pre_end isspace 0); lia).
  pose proof (spaces_run 0 rem) as HS. cbn [Nat.add skipn] in HS. fold w in HS.
  pose proof (fun o => rs_seq tut_E s at_ _ _ _ _ items (fun _ r => r) _ _ _ rem _ _ _ o HS) as K.
  assert (RD : forall k, pre isdigit w = k -> reading s = match k, skipn w s with
    | 0, [] => ([], [])
    | 0, _ => ([], [{| mk_pos := w; mk_op := Skip (len - w); mk_exp := ["number"; "end of file"]%string |}])
    | _, _ => let (l, e) := readings len (num_end w) (num_pend w) (skipn (num_end w) s) in (num_value w :: l, e) end).
  { intros k Hk. unfold TutorialSpec.reading. fold w. cbv zeta.
    rewrite Hk. destruct k.
    - destruct (skipn w s) as [|c t] eqn:Q; [reflexivity|]. replace (len - w) with (List.length (c :: t)); [reflexivity|]. rewrite <- Q, skipn_length. reflexivity.
    - rewrite !skipn_add, <- Hk. reflexivity. }
  destruct (pre isdigit w) as [|k] eqn:P.
  - (* no number *)
    specialize (RD 0 eq_refl). exists (RSucc [] w ["number"%string]). split.
    + split; [exact Hw|]. rewrite RD. unfold leftover. destruct (skipn w s) as [|c t] eqn:Q.
      * apply skip_nil in Q as [_ Q]. replace (w =? len) with true by (symmetry; apply Nat.eqb_eq; lia). reflexivity.
      * apply skip_cons in Q as (_ & _ & Q). replace (w =? len) with false by (symmetry; apply Nat.eqb_neq; lia). reflexivity.
    + specialize (K (RSucc [] w ["number"%string])). cbn [r_after on_rvalue] in K. rewrite Nat.ltb_irrefl in K. apply K.
      refine (rs_fmap tut_E s at_ _ _ _ _ m w ins _ None w _ _ _ eq_refl). eapply rs_maybe_none. eapply rs_seq_fail. apply item_none. exact P.
  - assert (P' : pre isdigit w <> 0) by lia. specialize (RD (S k) eq_refl).
    pose proof (num_end_le w Hw) as HL. assert (HG : w < num_end w) by (unfold num_end; lia).
    destruct (rest_ok (num_end w) HL) as (o & Ho & Hr).
    pose proof (rs_seq tut_E s at_ _ _ _ _ _ (fun l r => (l, r)) _ _ _ None _ _ _ o (item_read w None P') (Hr _)) as K1.
    destruct o as [vs j Y|b l Y|nr b l Y L|e]; cbn [tail_ok] in Ho; try tauto.
    + destruct Ho as (-> & Hj & Hrd). cbn [r_after on_rvalue] in K1.
      set (Z := if num_end w <? j then ["','"%string] else num_pend w ++ ["','"%string]) in *.
      exists (RSucc (num_value w :: vs) j Z). split.
      * split; [lia|]. rewrite RD, Hrd by lia. reflexivity.
      * specialize (K (RSucc (num_value w :: vs) j Z)). cbn [r_after on_rvalue app] in K. assert (QZ : (if w <? j then Z else Z) = Z) by (case (w <? j); reflexivity). rewrite QZ in K.
        apply K. refine (rs_fmap tut_E s at_ _ _ _ _ m w ins _ (Some (num_value w, vs)) j _ _ _ eq_refl).
        refine (rs_maybe tut_E s at_ _ _ m w ins _ (RSucc (num_value w, vs) j Z) K1 _). exact I.
    + destruct Ho as (r & ms & Hm & Hrd). cbn [r_after on_rvalue] in K1.
      rewrite fine_after_all in K1 by apply Hm. rewrite (proj2 (Nat.ltb_lt _ _) HG) in K1.
      match type of K1 with rsem _ _ _ _ _ _ _ _ _ ?o => set (o1 := o) in * end.
      assert (St : settled o1) by (cbn; destruct b; reflexivity).
      pose proof (rs_maybe tut_E s at_ _ _ m w ins (if 0 <? w then Some ins else rem) o1 K1 St) as K2. unfold o1 in K2. cbn [on_rvalue] in K2.
      pose proof (rs_fmap_offer tut_E s at_ _ _ _ (fun v => Ret match v with None => [] | Some (x, l) => [x] ++ l end) _ _ _ _ _ _ _ _ _ _ K2 (f_map_ret _ _)) as K3.
      pose proof (K _ K3) as K4. cbn [r_after on_rvalue] in K4.
      match type of K4 with rsem _ _ _ _ _ _ _ _ _ ?o => exists o; split; [|exact K4] end.
      assert (M3 : meets (map (fun r : offer (list Z) => f_with r (num_value w :: f_val r)) L) (f_with r (num_value w :: f_val r)) ms) by (apply (meets_with (cons (num_value w)) _ _ _ Hm)).
      rewrite !map_map. cbn [list_ok f_with f_val app]. unfold f_with in *. cbn [f_cost f_rank f_left f_ops f_pos f_exp f_con f_val] in *.
      eexists _, ms. split.
      * match goal with |- meets ?L' _ _ => match type of M3 with meets ?L'' _ _ => replace L' with L''; [exact M3|] end end.
        symmetry. rewrite <- (map_map (fun r : offer (list Z) => Offer (f_cost r) (f_rank r) (f_left r) (f_ops r) (num_value w :: f_val r) (f_pos r) (f_exp r) (f_con r))
          (fun r : offer (list Z) => let r' := f_after (0 <? w) [] r in Offer (f_cost r') (f_rank r') (f_left r') (f_ops r') (f_val r') (f_pos r') (f_exp r') (f_con r'))).
        rewrite <- (map_id (map _ L)) at 2. apply map_ext_in. intros x Hx.
        rewrite fine_after by (apply M3; exact Hx). destruct x; reflexivity.
      * cbn [f_val f_pos f_exp]. rewrite RD, Hrd by lia. reflexivity.
Qed.
End P.
