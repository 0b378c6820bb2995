(** What the specification of the tutorial's parser says about texts without
    mistakes, and about texts in which only numbers are missing. *)
From Verif Require Export TutorialSpec.
From Coq Require Import Lia.
Import ListNotations.

Section P.
Variable isdigit isspace : char -> bool.
Variable decimal : char -> option Z.
Hypothesis TC : tut_chars isdigit isspace.
Notation readings := (readings isdigit isspace decimal).
Notation reading := (reading isdigit isspace decimal).
Notation value := (value decimal).
Notation decimal_text := (decimal_text isdigit decimal).
Notation white := (white isspace).
Notation numbers := (numbers isdigit isspace decimal).
Notation number_list := (number_list isdigit isspace decimal).
Notation gapped := (gapped isdigit isspace decimal).
Notation gaps := (gaps isdigit isspace decimal).

(** does not begin with a character of the class *)
Definition clear (f : char -> bool) (t : list char) : Prop := forall c t', t = c :: t' -> f c = false.
Lemma prefix_app f x t : Forall (fun c => f c = true) x -> clear f t -> prefix f (x ++ t) = List.length x.
Proof.
  intros H Ht. induction H as [|c x Hc _ IH]; cbn.
  - destruct t as [|c t]; [reflexivity|]. cbn. rewrite (Ht c t eq_refl). reflexivity.
  - rewrite Hc, IH. reflexivity.
Qed.
Lemma prefix_split f t : exists x u, t = x ++ u /\ Forall (fun c => f c = true) x /\ clear f u /\ prefix f t = List.length x.
Proof.
  induction t as [|c t (x & u & -> & H1 & H2 & H3)].
  - exists [], []. repeat split; auto. intros c t Q. discriminate.
  - destruct (f c) eqn:F.
    + exists (c :: x), u. cbn. rewrite F, H3. repeat split; auto.
    + exists [], (c :: x ++ u). cbn. rewrite F. repeat split; auto. intros c' t Q. injection Q as <- _. exact F.
Qed.
Lemma skipn_len {X} (x t : list X) : skipn (List.length x) (x ++ t) = t.
Proof. induction x; cbn; auto. Qed.
Lemma firstn_len {X} (x t : list X) : firstn (List.length x) (x ++ t) = x.
Proof. induction x; cbn; congruence. Qed.
Lemma find_app f x t : Forall (fun c => f c = false) x -> find f (x ++ t) = option_map (Nat.add (List.length x)) (find f t).
Proof.
  induction 1 as [|c x H _ IH]; cbn.
  - destruct (find f t); reflexivity.
  - rewrite H, IH. destruct (find f t); reflexivity.
Qed.

Lemma value_snoc x c : value (x ++ [c]) = (10 * value x + match decimal c with Some d => d | None => 0 end)%Z.
Proof. unfold TutorialSpec.value. rewrite fold_left_app. reflexivity. Qed.
Lemma decimal_value x z : decimal_text x z -> x <> [] /\ Forall (fun c => isdigit c = true) x /\ value x = z.
Proof.
  induction 1 as [c d H1 H2|x z c d H (IH1 & IH2 & IH3) H1 H2].
  - repeat split; [discriminate|constructor; auto|]. unfold TutorialSpec.value. cbn. rewrite H2. reflexivity.
  - repeat split; [destruct x; discriminate|apply Forall_app; split; auto|]. rewrite value_snoc, H2, IH3. reflexivity.
Qed.
Lemma value_decimal x : x <> [] -> Forall (fun c => isdigit c = true) x -> (forall c, In c x -> isdigit c = true -> decimal c <> None) ->
  decimal_text x (value x).
Proof.
  induction x as [|c x IH] using rev_ind; intros H0 H HD; [congruence|]. apply Forall_app in H as [H1 H2]. inversion H2 as [|? ? H3 _]. subst.
  pose proof (HD c ltac:(apply in_or_app; right; left; reflexivity) H3) as D. destruct (decimal c) as [d|] eqn:Q; [|congruence].
  destruct x as [|c0 x].
  - cbn. unfold TutorialSpec.value. cbn. rewrite Q. apply dt_one; auto.
  - rewrite value_snoc, Q. apply dt_more; auto. apply IH; [discriminate|auto|]. intros c' Hc. apply HD. apply in_or_app. auto.
Qed.

(** what stands behind a number: nothing or a comma *)
Definition done (t : list char) : Prop := t = [] \/ exists t', t = 44%N :: t'.
Lemma done_clear t : done t -> clear isdigit t /\ clear isspace t.
Proof using TC.
  destruct TC as [_ [D S]]. intros [->|[t' ->]]; split; intros c u Q; try discriminate; injection Q as <- _; auto.
Qed.
Lemma white_digit w t : white w -> clear isdigit t -> clear isdigit (w ++ t).
Proof using TC.
  intros H Ht. destruct H as [|c w H _]; [exact Ht|]. intros c' u Q. injection Q as <- _. destruct (isdigit c) eqn:D; auto.
  rewrite (tc_digit _ _ TC _ D) in H. discriminate.
Qed.
Lemma digit_clear x z t : decimal_text x z -> clear isspace (x ++ t).
Proof using TC.
  intros H. apply decimal_value in H as (H1 & H2 & _). destruct H2 as [|c x H _]; [congruence|]. intros c' u Q. injection Q as <- _.
  apply (tc_digit _ _ TC), H.
Qed.
(** reading a number that begins [d] characters later, and what follows *)
Definition num (n q d : nat) (t : list char) : list Z * list mistake :=
  let k := prefix isdigit (skipn d t) in
  let u := skipn (d + k) t in
  let w' := prefix isspace u in
  let (l, e) := readings n (q + d + k + w') (if (0 <? d) && (w' =? 0) then ["digit"%string] else []) (skipn w' u) in
  (value (firstn k (skipn d t)) :: l, e).
Lemma step n p X w t : white w -> clear isspace t ->
  readings (S n) p X (44%N :: w ++ t) =
  let q := p + 1 + List.length w in
  match find isdigit t with
  | Some 0 => num n q 0 t
  | d =>
      let (l, e) := readings n q [] t in
      let insert := (0%Z :: l, {| mk_pos := q; mk_op := Insert "0"; mk_exp := ["number"%string] |} :: e) in
      match d with
      | None => insert
      | Some d => let (l, e) := num n q d t in
          let skip := (l, {| mk_pos := q; mk_op := Skip d; mk_exp := ["number"%string] |} :: e) in
          if prices (snd skip) <? prices (snd insert) then skip else insert
      end
  end.
Proof.
  intros Hw Ht. cbn [TutorialSpec.readings]. rewrite (prefix_app isspace w t Hw Ht), skipn_len. reflexivity.
Qed.
Lemma num_at n q b x z w t : decimal_text x z -> white w -> done t ->
  num n q (List.length b) (b ++ x ++ w ++ t) =
  let (l, e) := readings n (q + List.length b + List.length x + List.length w)
    (if (0 <? List.length b) && (List.length w =? 0) then ["digit"%string] else []) t in (z :: l, e).
Proof using TC.
  intros H Hw Ht. pose proof (decimal_value _ _ H) as (H1 & H2 & H3). destruct (done_clear _ Ht) as [T1 T2]. unfold num.
  rewrite skipn_len. rewrite (prefix_app isdigit x (w ++ t) H2 (white_digit _ _ Hw T1)).
  assert (Q : skipn (List.length b + List.length x) (b ++ x ++ w ++ t) = w ++ t).
  { rewrite <- app_length, app_assoc. apply skipn_len. }
  cbv zeta. rewrite Q, (prefix_app isspace w t Hw T2), skipn_len, firstn_len, H3. reflexivity.
Qed.
Lemma find_digit x z t : decimal_text x z -> find isdigit (x ++ t) = Some 0.
Proof. intros H. apply decimal_value in H as (H1 & H2 & _). destruct H2 as [|c x H _]; [congruence|]. cbn. rewrite H. reflexivity. Qed.

(** ** Texts without mistakes *)
Lemma numbers_text s l : numbers s l -> exists x z w t l', s = x ++ w ++ t /\ l = z :: l' /\ decimal_text x z /\ white w /\ done t /\
  forall n p X, List.length t <= n -> readings n p X t = (l', []).
Proof using TC.
  induction 1 as [x z w H Hw|x z w w' s l H Hw Hw' Hs (x1 & z1 & w1 & t1 & l1 & -> & -> & H1 & H2 & H3 & H4)].
  - exists x, z, w, [], []. rewrite app_nil_r. repeat split; auto; [left; reflexivity|]. intros [|n] p X _; reflexivity.
  - exists x, z, w, (44%N :: w' ++ x1 ++ w1 ++ t1), (z1 :: l1). repeat split; auto; [right; eauto|].
    intros n p X Hn. destruct n as [|n]; [cbn in Hn; lia|]. rewrite step; auto; [|eapply digit_clear; eauto]. rewrite (find_digit _ _ _ H1). cbv zeta.
    pose proof (num_at n (p + 1 + List.length w') [] x1 z1 w1 t1 H1 H2 H3) as K. cbn [List.length app] in K. rewrite K.
    rewrite H4; [reflexivity|]. cbn in Hn. rewrite !app_length in Hn. lia.
Qed.
Lemma reading_number w x z w1 t : white w -> decimal_text x z -> white w1 -> done t ->
  reading (w ++ x ++ w1 ++ t) =
  let (l, e) := readings (List.length (w ++ x ++ w1 ++ t)) (List.length w + List.length x + List.length w1)
    (if List.length w1 =? 0 then ["digit"%string] else []) t in (z :: l, e).
Proof using TC.
  intros Hw H Hw1 Ht. pose proof (decimal_value _ _ H) as (H1 & H2 & H3). destruct (done_clear _ Ht) as [T1 T2].
  unfold TutorialSpec.reading. rewrite (prefix_app isspace w (x ++ w1 ++ t) Hw (digit_clear _ _ _ H)), skipn_len.
  rewrite (prefix_app isdigit x (w1 ++ t) H2 (white_digit _ _ Hw1 T1)). destruct x as [|c x]; [congruence|].
  cbn [List.length]. change (S (List.length x)) with (List.length (c :: x)). rewrite skipn_len, firstn_len.
  rewrite (prefix_app isspace w1 t Hw1 T2), skipn_len, H3. reflexivity.
Qed.
Lemma clear_nil f : clear f [].
Proof. intros c t Q. discriminate. Qed.
Theorem list_reading s l : number_list s l -> reading s = (l, []).
Proof using TC.
  intros [w Hw|w s' l' Hw H].
  - unfold TutorialSpec.reading. rewrite <- (app_nil_r w). rewrite (prefix_app isspace w [] Hw (clear_nil _)), skipn_len. reflexivity.
  - apply numbers_text in H as (x & z & w1 & t & l1 & -> & -> & H1 & H2 & H3 & H4).
    rewrite (reading_number w x z w1 t); auto. rewrite H4; [reflexivity|]. rewrite !app_length. lia.
Qed.
(** and the other way round *)
Definition decimals (s : list char) : Prop := all_decimal isdigit decimal s.
Lemma decimals_app a b : decimals (a ++ b) -> decimals a /\ decimals b.
Proof. intros H. split; intros c Hc; apply H, in_or_app; auto. Qed.
Lemma read_done n : forall p X s l, decimals s -> List.length s <= n -> readings n p X s = (l, []) ->
  (s = [] /\ l = []) \/ exists w s', s = 44%N :: w ++ s' /\ white w /\ numbers s' l.
Proof using TC.
  induction n as [|n IH]; intros p X s l HD Hn H.
  { destruct s as [|c s]; [|cbn in Hn; lia]. cbn in H. injection H as <-. auto. }
  destruct s as [|c s]; [cbn in H; injection H as <-; auto|]. right.
  assert (C : c = 44%N).
  { destruct (N.eqb_spec c 44) as [->|C]; [reflexivity|]. exfalso. cbn [TutorialSpec.readings] in H.
    destruct c as [|c]; [discriminate H|]. do 6 (destruct c as [c|c|]; try discriminate H). congruence. }
  subst c. destruct (prefix_split isspace s) as (w & t & -> & Hw & Ht & _). exists w, t. split; [reflexivity|]. split; [exact Hw|].
  rewrite step in H by auto. cbv zeta in H. set (q := p + 1 + List.length w) in *.
  destruct (find isdigit t) as [[|d]|] eqn:F.
  - destruct (prefix_split isdigit t) as (x & u & -> & Hx & Hu & _). destruct (prefix_split isspace u) as (w1 & r & -> & Hw1 & Hr & _).
    assert (Hx0 : x <> []).
    { intros ->. cbn [app] in F. destruct (w1 ++ r) as [|c t] eqn:Q; [discriminate|]. cbn in F. rewrite (Hu c t eq_refl) in F.
      destruct (find isdigit t); discriminate. }
    unfold num in H. cbn [skipn Nat.add] in H. rewrite (prefix_app isdigit x (w1 ++ r) Hx Hu), skipn_len, firstn_len in H.
    rewrite (prefix_app isspace w1 r Hw1 Hr), skipn_len in H.
    change (44%N :: w ++ x ++ w1 ++ r) with ([44%N] ++ w ++ x ++ w1 ++ r) in HD.
    apply decimals_app in HD as [_ HD]. apply decimals_app in HD as [_ HD]. apply decimals_app in HD as [HDx HD]. apply decimals_app in HD as [_ HD].
    assert (V : decimal_text x (value x)) by (apply value_decimal; auto).
    match type of H with (let (l, e) := ?R in _) = _ => destruct R as [l' e] eqn:Q end. injection H as <- ->.
    apply IH in Q; auto; [|cbn in Hn; rewrite !app_length in Hn; lia].
    destruct Q as [[-> ->]|(w2 & s2 & -> & Hw2 & N2)]; [rewrite app_nil_r; apply ns_one; auto|apply ns_more; auto].
  - exfalso. destruct (readings n q [] t) as [l1 e1]. destruct (num n q (S d) t) as [l2 e2]. cbn [snd] in H. destruct (_ <? _); discriminate H.
  - exfalso. destruct (readings n q [] t) as [l1 e1]. discriminate H.
Qed.
Theorem reading_list s l : decimals s -> reading s = (l, []) -> number_list s l.
Proof using TC.
  intros HD H. destruct (prefix_split isspace s) as (w & t & -> & Hw & Ht & _). unfold TutorialSpec.reading in H.
  rewrite (prefix_app isspace w t Hw Ht), skipn_len in H.
  destruct (prefix_split isdigit t) as (x & u & -> & Hx & Hu & _). rewrite (prefix_app isdigit x u Hx Hu) in H.
  destruct x as [|c x].
  - cbn [List.length app] in H. cbn [app] in *. destruct u as [|c u]; [|discriminate]. injection H as <-. rewrite app_nil_r. apply nl_none. exact Hw.
  - cbn [List.length] in H. change (S (List.length x)) with (List.length (c :: x)) in H. rewrite skipn_len, firstn_len in H.
    destruct (prefix_split isspace u) as (w1 & r & -> & Hw1 & Hr & _). rewrite (prefix_app isspace w1 r Hw1 Hr), skipn_len in H.
    apply decimals_app in HD as [_ HD]. apply decimals_app in HD as [HDx HD]. apply decimals_app in HD as [_ HD].
    assert (V : decimal_text (c :: x) (value (c :: x))) by (apply value_decimal; auto; discriminate).
    match type of H with (let (l, e) := ?R in _) = _ => destruct R as [l' e] eqn:Q end. injection H as <- ->.
    apply read_done in Q; auto; [|rewrite !app_length; lia].
    apply nl_some; auto.
    destruct Q as [[-> ->]|(w2 & s2 & -> & Hw2 & N2)]; [rewrite app_nil_r; apply ns_one; auto|apply ns_more; auto].
Qed.

(** ** Texts in which only numbers are missing *)
Definition missing (p : nat) : mistake := {| mk_pos := p; mk_op := Insert "0"; mk_exp := ["number"%string] |}.
Lemma missing_prices (f : nat -> nat) ps : prices (map (fun o => missing (f o)) ps) = List.length ps.
Proof. unfold prices. induction ps as [|p ps IH]; [reflexivity|]. cbn [map list_sum fold_right List.length price missing mk_op] in *. unfold list_sum in IH. rewrite IH. reflexivity. Qed.
Definition gap_text (s : list char) (l : list Z) (ps : list nat) : Prop :=
  exists x z w t l', s = x ++ w ++ t /\ l = z :: l' /\ decimal_text x z /\ white w /\ done t /\
    forall n p X, List.length t <= n -> readings n (p + List.length x + List.length w) X t = (l', map (fun o => missing (p + o)) ps).
Definition gap_rest (s : list char) (l : list Z) (ps : list nat) : Prop :=
  done s /\
  (forall n p X, List.length s <= n -> readings n p X s = (l, map (fun o => missing (p + o)) ps)) /\
  (forall d n q, find isdigit s = Some d -> List.length s <= n -> List.length ps + 1 <= prices (snd (num n q d s)) + d).
Lemma done_find s : done s -> find isdigit s <> Some 0.
Proof using TC.
  intros [->|[t ->]]; cbn; [discriminate|]. destruct TC as [_ [-> _]]. destruct (find isdigit t); discriminate.
Qed.
(** behind a comma at [p], with a number missing *)
Lemma gap_here w s l ps : white w -> gap_rest s l ps -> forall n p X, List.length s < n ->
  readings n p X (44%N :: w ++ s) = (0%Z :: l, missing (p + 1 + List.length w) :: map (fun o => missing (p + 1 + List.length w + o)) ps).
Proof using TC.
  intros Hw (H1 & H2 & H3) n p X Hn. destruct n as [|n]; [lia|]. rewrite step; auto; [|apply done_clear, H1]. cbv zeta.
  set (q := p + 1 + List.length w). rewrite (H2 n q []) by lia.
  destruct (find isdigit s) as [[|d]|] eqn:F; [destruct (done_find _ H1 F)| |reflexivity].
  specialize (H3 (S d) n q eq_refl ltac:(lia)). destruct (num n q (S d) s) as [l2 e2]. cbn [snd] in *.
  match goal with |- (if ?a <? ?b then _ else _) = _ => assert (L : b <= a) end.
  { change (prices (missing q :: map (fun o => missing (q + o)) ps) <= prices ({| mk_pos := q; mk_op := Skip (S d); mk_exp := ["number"%string] |} :: e2)).
    pose proof (missing_prices (fun o => q + o) ps) as P.
    assert (PC : forall m ms, prices (m :: ms) = price m + prices ms) by reflexivity.
    rewrite !PC, P. cbn [price missing mk_op]. lia. }
  apply Nat.ltb_ge in L. rewrite L. reflexivity.
Qed.
Lemma number_here w s l ps : white w -> gap_text s l ps -> forall n p X, List.length s < n ->
  readings n p X (44%N :: w ++ s) = (l, map (fun o => missing (p + 1 + List.length w + o)) ps).
Proof using TC.
  intros Hw (x & z & w1 & t & l' & -> & -> & H1 & H2 & H3 & H4) n p X Hn. destruct n as [|n]; [lia|].
  rewrite step; auto; [|eapply digit_clear; eauto]. rewrite (find_digit _ _ _ H1). cbv zeta.
  pose proof (num_at n (p + 1 + List.length w) [] x z w1 t H1 H2 H3) as K. cbn [List.length app] in K. rewrite K, Nat.add_0_r.
  rewrite H4; [reflexivity|]. rewrite !app_length in Hn. lia.
Qed.
Lemma num_shift n q b d s : 0 < d -> num n q (List.length b + d) (b ++ s) = num n (q + List.length b) d s.
Proof.
  intros H. unfold num.
  assert (K : forall k, skipn (List.length b + k) (b ++ s) = skipn k s).
  { intros k. clear. induction b as [|c b IH]; cbn; auto. }
  rewrite K. cbv zeta. rewrite <- (Nat.add_assoc (List.length b) d (prefix isdigit (skipn d s))), K. rewrite !Nat.add_assoc. replace (0 <? List.length b + d) with (0 <? d); [reflexivity|].
  rewrite (proj2 (Nat.ltb_lt 0 d)), (proj2 (Nat.ltb_lt 0 (List.length b + d))) by lia. reflexivity.
Qed.
Lemma comma_white w : white w -> Forall (fun c => isdigit c = false) (44%N :: w).
Proof using TC.
  intros H. constructor; [apply TC|]. apply Forall_forall. intros c Hc. unfold TutorialSpec.white in H. rewrite Forall_forall in H. specialize (H c Hc).
  cbn in H. destruct (isdigit c) eqn:D; [|reflexivity]. rewrite (tc_digit _ _ TC c D) in H. discriminate.
Qed.
Lemma map_missing p (b : list char) k ps : p + List.length b = k ->
  map (fun o => missing (p + o)) (map (Nat.add (List.length b)) ps) = map (fun o => missing (k + o)) ps.
Proof. intros <-. rewrite map_map. apply map_ext. intros o. f_equal. lia. Qed.

Scheme gapped_ind2 := Induction for TutorialSpec.gapped Sort Prop
with gaps_ind2 := Induction for TutorialSpec.gaps Sort Prop.
Lemma gapped_text : forall s l ps, gapped s l ps -> gap_text s l ps.
Proof using TC.
  intros s l ps H.
  induction H as [x z w H Hw|x z w w' s l ps H Hw Hw' Hs IH b|x z w w' s l ps H Hw Hw' Hs IH b| |w s l ps Hw Hs IH b|w s l ps Hw Hs IH b]
    using gapped_ind2 with (P0 := fun s l ps _ => gap_rest s l ps).
  - exists x, z, w, [], []. rewrite app_nil_r. repeat split; auto; [left; reflexivity|]. intros [|n] p X _; reflexivity.
  - exists x, z, w, (44%N :: w' ++ s), l. unfold b. rewrite <- !app_assoc. repeat split; auto; [right; eauto|].
    intros n p X Hn. rewrite (number_here w' s l ps) by (auto; cbn in Hn; rewrite app_length in Hn; lia). f_equal. symmetry. apply map_missing.
    rewrite !app_length. cbn. lia.
  - exists x, z, w, (44%N :: w' ++ s), (0%Z :: l). unfold b. rewrite <- !app_assoc. repeat split; auto; [right; eauto|].
    intros n p X Hn. rewrite (gap_here w' s l ps) by (auto; cbn in Hn; rewrite app_length in Hn; lia). f_equal. cbn [map].
    assert (Q : p + List.length (x ++ w ++ 44%N :: w') = p + List.length x + List.length w + 1 + List.length w') by (rewrite !app_length; cbn; lia).
    rewrite Q. f_equal. symmetry. apply map_missing. exact Q.
  - split; [left; reflexivity|]. split; [intros [|n] p X _; reflexivity|]. intros d n q Q. discriminate.
  - unfold b. split; [right; eexists; reflexivity|]. split.
    + intros n p X Hn. change ((44%N :: w) ++ s) with (44%N :: w ++ s) in *. rewrite (gap_here w s l ps) by (auto; cbn in Hn; rewrite app_length in Hn; lia).
      f_equal. cbn [map]. assert (Q : p + @List.length char (44%N :: w) = p + 1 + List.length w) by (cbn; lia). rewrite Q. f_equal. symmetry. apply map_missing. exact Q.
    + intros d n q F Hn. rewrite find_app in F by (apply comma_white; exact Hw). destruct IH as (D & _ & IH).
      pose proof (done_find _ D) as ND. destruct (find isdigit s) as [[|d']|] eqn:F'; [congruence| |discriminate]. injection F as <-.
      pose proof (num_shift n q (44%N :: w) (S d') s ltac:(lia)) as K. cbn [List.length] in *. rewrite app_length in Hn. cbn in Hn. cbn [Nat.add] in *.
      rewrite K. specialize (IH (S d') n (q + S (List.length w)) eq_refl ltac:(lia)). rewrite map_length. lia.
  - unfold b. split; [right; eexists; reflexivity|]. split.
    + intros n p X Hn. change ((44%N :: w) ++ s) with (44%N :: w ++ s) in *. rewrite (number_here w s l ps) by (auto; cbn in Hn; rewrite ?app_length in Hn; lia).
      f_equal. symmetry. apply map_missing. cbn. lia.
    + intros d n q F Hn. destruct IH as (x & z & w1 & t & l' & -> & -> & H1 & H2 & H3 & H4).
      rewrite find_app in F by (apply comma_white; exact Hw). rewrite (find_digit _ _ _ H1) in F. injection F as <-.
      pose proof (num_at n q (44%N :: w) x z w1 t H1 H2 H3) as K. cbn [List.length] in *. cbn [Nat.add] in *. rewrite Nat.add_0_r. rewrite K.
      rewrite H4 by (rewrite !app_length in Hn; cbn in Hn; lia). cbn [snd]. rewrite missing_prices, map_length. lia.
Qed.
Theorem reading_gaps w s l ps : white w -> gapped s l ps -> reading (w ++ s) = (l, map (fun o => missing (List.length w + o)) ps).
Proof using TC.
  intros Hw H. apply gapped_text in H as (x & z & w1 & t & l' & -> & -> & H1 & H2 & H3 & H4).
  rewrite (reading_number w x z w1 t); auto. rewrite H4; [reflexivity|]. rewrite !app_length. lia.
Qed.
End P.
