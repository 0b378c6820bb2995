(** Proofs about regular expressions (Regex.v, RegexSpec.v) *)
From Verif Require Export RegexSpec.
From Coq Require Import Lia.

Section RegexProofs.
Variable space digit : char -> bool.
Notation ways := (ways space digit).
Notation matches := (matches space digit).
Notation search := (search space digit).
Notation re_first := (re_first space digit).

(** the loop of [RStar], as a function of its own *)
Fixpoint again (r : regex) (n : nat) (s : list char) (c : captures) : list (list char * captures) :=
  match n with
  | O => [(s, c)]
  | S n =>
      flat_map (fun w => if Nat.ltb (List.length (fst w)) (List.length s) then again r n (fst w) (snd w) else [])
        (ways r s c) ++ [(s, c)]
  end.
Lemma ways_star r s c : ways (RStar r) s c = again r (List.length s) s c.
Proof.
  cbn [Regex.ways]. generalize (List.length s) as n. intros n. revert s c.
  induction n as [|n IH]; intros s c; cbn [again]; [reflexivity|].
  f_equal. apply flat_map_ext. intros w. destruct (Nat.ltb _ _); auto.
Qed.

(** the classes of the matcher are those of the specification *)
Lemma in_set_allowed neg l c : in_set space digit neg l c = allowed space digit neg l c.
Proof.
  unfold in_set, allowed. replace (existsb (in_item space digit c) l) with (listed space digit c l).
  - destruct neg, (listed space digit c l); reflexivity.
  - induction l as [|[a|a b| |] l IH]; cbn [listed existsb in_item]; [reflexivity| | | |]; rewrite <- IH.
    + destruct (N.eqb c a); reflexivity.
    + destruct (N.ltb_spec c a), (N.leb_spec a c), (N.ltb_spec b c), (N.leb_spec c b); cbn; try reflexivity; lia.
    + destruct (space c); reflexivity.
    + destruct (digit c); reflexivity.
Qed.

(** ** [ways] finds texts of the pattern, and all of them *)
Lemma again_sound r (H : forall s c t c', In (t, c') (ways r s c) -> exists w, s = w ++ t /\ matches r w) :
  forall n s c t c', In (t, c') (again r n s c) -> exists w, s = w ++ t /\ matches (RStar r) w.
Proof.
  induction n as [|n IH]; intros s c t c'; cbn [again].
  - intros [Q|[]]. injection Q as <- <-. exists []. split; [reflexivity|constructor].
  - rewrite in_app_iff, in_flat_map. intros [([s1 c1] & H1 & H2)|[Q|[]]].
    + cbn [fst snd] in H2. destruct (Nat.ltb _ _); [|destruct H2].
      apply H in H1 as (w1 & -> & M1). apply IH in H2 as (w2 & -> & M2). exists (w1 ++ w2).
      split; [rewrite app_assoc; reflexivity|constructor; auto].
    + injection Q as <- <-. exists []. split; [reflexivity|constructor].
Qed.
Lemma ways_sound r : forall s c t c', In (t, c') (ways r s c) -> exists w, s = w ++ t /\ matches r w.
Proof.
  induction r as [|neg l| |r1 IH1 r2 IH2|r1 IH1 r2 IH2|r IH|k name r IH]; intros s c t c' H.
  - destruct H as [Q|[]]. injection Q as <- <-. exists []. split; [reflexivity|constructor].
  - destruct s as [|x s]; [destruct H|]. cbn in H. destruct (in_set _ _ neg l x) eqn:Q; [|destruct H].
    destruct H as [Q'|[]]. injection Q' as <- <-. exists [x]. split; [reflexivity|constructor; rewrite <- in_set_allowed; exact Q].
  - destruct s as [|x s]; [destruct H|]. cbn in H. destruct (N.eqb_spec x 10); [destruct H|].
    destruct H as [Q'|[]]. injection Q' as <- <-. exists [x]. split; [reflexivity|constructor; auto].
  - cbn in H. apply in_flat_map in H as ([s1 c1] & H1 & H2). apply IH1 in H1 as (w1 & -> & M1).
    apply IH2 in H2 as (w2 & Q & M2). cbn in Q. subst s1. exists (w1 ++ w2). split; [rewrite app_assoc; reflexivity|constructor; auto].
  - cbn in H. apply in_app_iff in H as [H|H]; [apply IH1 in H|apply IH2 in H]; destruct H as (w & -> & M); exists w; split; auto.
    + apply m_alt1; auto.
    + apply m_alt2; auto.
  - rewrite ways_star in H. eapply again_sound; eauto.
  - cbn in H. apply in_map_iff in H as ([s1 c1] & Q & H). injection Q as <- <-. apply IH in H as (w & -> & M).
    exists w. split; [reflexivity|constructor; exact M].
Qed.
Lemma again_complete r w (M : matches (RStar r) w)
    (H : forall w0 t c, matches r w0 -> exists c', In (t, c') (ways r (w0 ++ t) c)) :
  forall n t c, (List.length w <= n)%nat -> exists c', In (t, c') (again r n (w ++ t) c).
Proof.
  remember (RStar r) as q eqn:Q. induction M as [| | | | | |r0|r0 w1 w2 M1 _ M2 IH|]; try discriminate Q; injection Q as ->.
  - intros n t c _. exists c. destruct n; cbn [again]; [left; reflexivity|apply in_app_iff; right; left; reflexivity].
  - intros n t c Hn. rewrite app_length in Hn. destruct w1 as [|x w1].
    { apply (IH eq_refl). cbn in Hn. lia. }
    destruct n as [|n]; [cbn in Hn; lia|].
    destruct (H (x :: w1) (w2 ++ t) c M1) as [c1 H1].
    destruct (IH eq_refl n t c1) as [c2 H2]; [cbn in Hn; lia|].
    exists c2. cbn [again]. apply in_app_iff. left. apply in_flat_map. exists (w2 ++ t, c1). split.
    + rewrite <- app_assoc. exact H1.
    + cbn [fst snd]. replace (Nat.ltb _ _) with true; [exact H2|]. symmetry. apply Nat.ltb_lt.
      rewrite !app_length. cbn. rewrite ?app_length. lia.
Qed.
Lemma ways_complete r : forall w t c, matches r w -> exists c', In (t, c') (ways r (w ++ t) c).
Proof.
  induction r as [|neg l| |r1 IH1 r2 IH2|r1 IH1 r2 IH2|r IH|k name r IH]; intros w t c M.
  6:{ rewrite ways_star. eapply again_complete; eauto. rewrite app_length. lia. }
  - inversion M; subst. exists c. left. reflexivity.
  - inversion M as [|n l' x Q| | | | | | |]; subst. exists c. cbn. rewrite in_set_allowed, Q. left. reflexivity.
  - inversion M as [| |x Q| | | | | |]; subst. exists c. cbn. destruct (N.eqb_spec x 10); [contradiction|left; reflexivity].
  - inversion M as [| | |a b w1 w2 M1 M2| | | | |]; subst. destruct (IH1 w1 (w2 ++ t) c M1) as [c1 H1].
    destruct (IH2 w2 t c1 M2) as [c2 H2]. exists c2. cbn. apply in_flat_map. exists (w2 ++ t, c1).
    rewrite <- app_assoc. auto.
  - inversion M as [| | | |a b w' M1|a b w' M2| | |]; subst.
    + destruct (IH1 w t c M1) as [c1 H1]. exists c1. cbn. apply in_app_iff. auto.
    + destruct (IH2 w t c M2) as [c1 H1]. exists c1. cbn. apply in_app_iff. auto.
  - inversion M as [| | | | | | | |a b d w' M1]; subst. destruct (IH w t c M1) as [c1 H1].
    eexists. cbn. apply in_map_iff. exists (t, c1). split; [reflexivity|exact H1].
Qed.

(** ** The order of [ways] is that of the search *)
Fixpoint first_some {X Y} (k : Y -> option X) (l : list Y) : option X :=
  match l with [] => None | y :: l => match k y with Some x => Some x | None => first_some k l end end.
Lemma first_some_app {X Y} (k : Y -> option X) l l' :
  first_some k (l ++ l') = match first_some k l with Some x => Some x | None => first_some k l' end.
Proof. induction l as [|y l IH]; cbn; [reflexivity|]. destruct (k y); auto. Qed.
Lemma first_some_flat {X Y Z} (k : Y -> option X) (f : Z -> list Y) l :
  first_some k (flat_map f l) = first_some (fun z => first_some k (f z)) l.
Proof. induction l as [|y l IH]; cbn; [reflexivity|]. rewrite first_some_app, IH. reflexivity. Qed.
Lemma first_some_ext {X Y} (k k' : Y -> option X) l : (forall y, k y = k' y) -> first_some k l = first_some k' l.
Proof. intros H. induction l as [|y l IH]; cbn; [reflexivity|]. rewrite H, IH. reflexivity. Qed.
Lemma first_some_map {X Y Z} (k : Y -> option X) (f : Z -> Y) l : first_some k (map f l) = first_some (fun z => k (f z)) l.
Proof. induction l as [|y l IH]; cbn; [reflexivity|]. rewrite IH. reflexivity. Qed.

Lemma search_ways X r : forall s c (k : list char -> captures -> option X),
  search r s c k = first_some (fun w => k (fst w) (snd w)) (ways r s c).
Proof.
  induction r as [|neg l| |r1 IH1 r2 IH2|r1 IH1 r2 IH2|r IH|g name r IH]; intros s c k.
  - cbn. destruct (k s c); reflexivity.
  - cbn. destruct s as [|x s]; [reflexivity|]. rewrite <- in_set_allowed. destruct (in_set _ _ _ _ _); cbn; [destruct (k s c)|]; reflexivity.
  - cbn. destruct s as [|x s]; [reflexivity|]. destruct (N.eqb x 10); cbn; [|destruct (k s c)]; reflexivity.
  - cbn. rewrite IH1, first_some_flat. apply first_some_ext. intros [t c']. apply IH2.
  - cbn. rewrite first_some_app, IH1, IH2. reflexivity.
  - rewrite ways_star. cbn [RegexSpec.search]. generalize (List.length s) as n. intros n. revert s c.
    induction n as [|n IHn]; intros s c; cbn [again first_some]; [cbn; destruct (k s c); reflexivity|].
    rewrite first_some_app, first_some_flat, IH.
    replace (first_some (fun w => if Nat.ltb (List.length (fst w)) (List.length s) then _ (fst w) (snd w) else None) (ways r s c))
      with (first_some (fun z => first_some (fun w => k (fst w) (snd w))
        (if Nat.ltb (List.length (fst z)) (List.length s) then again r n (fst z) (snd z) else [])) (ways r s c)).
    { destruct (first_some _ (ways r s c)); [reflexivity|]. cbn. destruct (k s c); reflexivity. }
    apply first_some_ext. intros [t c']. cbn [fst snd]. destruct (Nat.ltb _ _); [symmetry; apply IHn|reflexivity].
  - cbn. rewrite IH, first_some_map. reflexivity.
Qed.
Lemma search_first r s : re_first r s = search r s [] (fun t c => Some (t, c)).
Proof.
  rewrite search_ways. unfold Regex.re_first. destruct (ways r s []) as [|[t c] l]; reflexivity.
Qed.

(** ** Consequences for [re_first] *)
Lemma first_sound r s t c : re_first r s = Some (t, c) -> exists w, s = w ++ t /\ matches r w.
Proof.
  unfold Regex.re_first. destruct (ways r s []) as [|[t' c'] l] eqn:Q; [discriminate|]. intros H. injection H as -> ->.
  eapply ways_sound. rewrite Q. left. reflexivity.
Qed.
Lemma first_none r s : re_first r s = None <-> forall w t, s = w ++ t -> ~ matches r w.
Proof.
  unfold Regex.re_first. split.
  - destruct (ways r s []) as [|w l] eqn:Q; [|discriminate]. intros _ w t -> M.
    destruct (ways_complete r w t [] M) as [c' H]. rewrite Q in H. destruct H.
  - intros H. destruct (ways r s []) as [|[t c] l] eqn:Q; [reflexivity|].
    destruct (ways_sound r s [] t c) as (w & E & M); [rewrite Q; left; reflexivity|]. destruct (H w t E M).
Qed.
Lemma taken_app w t : taken (w ++ t) t = w.
Proof.
  unfold taken. rewrite app_length. replace (_ + _ - _)%nat with (List.length w) by lia.
  rewrite firstn_app, Nat.sub_diag, firstn_all. cbn. apply app_nil_r.
Qed.

(** ** Groups *)
Definition caps_ok (r : regex) (s t : list char) (new : captures) : Prop :=
  forall k name x, In (k, name, x) new -> exists body a b, group_in k name body r /\ matches body x /\ s = a ++ x ++ b ++ t.
Lemma caps_left r r' s w t new : (forall k name body, group_in k name body r -> group_in k name body r') ->
  s = w ++ t -> forall t', (exists v, t = v ++ t') -> caps_ok r s t new -> caps_ok r' s t' new.
Proof.
  intros H -> t' [v ->] C k name x I. destruct (C k name x I) as (body & a & b & G & M & E).
  exists body, a, (b ++ v). rewrite <- app_assoc. auto.
Qed.
Lemma caps_right r r' s w t t' new : (forall k name body, group_in k name body r -> group_in k name body r') ->
  s = w ++ t -> caps_ok r t t' new -> caps_ok r' s t' new.
Proof.
  intros H -> C k name x I. destruct (C k name x I) as (body & a & b & G & M & E).
  exists body, (w ++ a), b. rewrite <- app_assoc, <- E. auto.
Qed.
Lemma caps_app r s t n1 n2 : caps_ok r s t n1 -> caps_ok r s t n2 -> caps_ok r s t (n1 ++ n2).
Proof. intros H1 H2 k name x I. apply in_app_iff in I as [I|I]; auto. Qed.
Lemma again_caps r (H : forall s c t c', In (t, c') (ways r s c) -> exists new, c' = new ++ c /\ caps_ok r s t new) :
  forall n s c t c', In (t, c') (again r n s c) -> exists new, c' = new ++ c /\ caps_ok (RStar r) s t new.
Proof.
  assert (N : forall q s t, caps_ok q s t []) by (intros q s t k name x []).
  induction n as [|n IH]; intros s c t c'; cbn [again].
  - intros [Q|[]]. injection Q as <- <-. exists []. auto.
  - rewrite in_app_iff, in_flat_map. intros [([s1 c1] & H1 & H2)|[Q|[]]].
    + cbn [fst snd] in H2. destruct (Nat.ltb _ _); [|destruct H2].
      pose proof (ways_sound r s c s1 c1 H1) as (w1 & E1 & _).
      pose proof (again_sound r (fun s c t c' X => ways_sound r s c t c' X) n s1 c1 t c' H2) as (w2 & E2 & _).
      apply H in H1 as (n1 & -> & K1). apply IH in H2 as (n2 & -> & K2). exists (n2 ++ n1).
      split; [rewrite app_assoc; reflexivity|]. apply caps_app.
      * eapply caps_right; [|exact E1|exact K2]. auto.
      * eapply caps_left; [|exact E1| |exact K1]; [intros; apply gi_star; auto|eauto].
    + injection Q as <- <-. exists []. auto.
Qed.
Lemma ways_caps r : forall s c t c', In (t, c') (ways r s c) -> exists new, c' = new ++ c /\ caps_ok r s t new.
Proof.
  assert (N : forall q s t, caps_ok q s t []) by (intros q s t k name x []).
  induction r as [|neg l| |r1 IH1 r2 IH2|r1 IH1 r2 IH2|r IH|k name r IH]; intros s c t c' H.
  - destruct H as [Q|[]]. injection Q as <- <-. exists []. auto.
  - destruct s as [|x s]; [destruct H|]. cbn in H. destruct (in_set _ _ neg l x) eqn:Q; [|destruct H].
    destruct H as [Q'|[]]. injection Q' as <- <-. exists []. auto.
  - destruct s as [|x s]; [destruct H|]. cbn in H. destruct (N.eqb x 10); [destruct H|].
    destruct H as [Q'|[]]. injection Q' as <- <-. exists []. auto.
  - cbn in H. apply in_flat_map in H as ([s1 c1] & H1 & H2). cbn [fst snd] in H2.
    pose proof (ways_sound _ _ _ _ _ H1) as (w1 & E1 & _). pose proof (ways_sound _ _ _ _ _ H2) as (w2 & E2 & _).
    apply IH1 in H1 as (n1 & -> & K1). apply IH2 in H2 as (n2 & -> & K2). exists (n2 ++ n1).
    split; [rewrite app_assoc; reflexivity|]. apply caps_app.
    + eapply caps_right; [|exact E1|exact K2]. intros; apply gi_cat2; auto.
    + eapply caps_left; [|exact E1| |exact K1]; [intros; apply gi_cat1; auto|eauto].
  - cbn in H. apply in_app_iff in H as [H|H]; [apply IH1 in H|apply IH2 in H]; destruct H as (n1 & -> & K); exists n1; (split; [reflexivity|]).
    + eapply (caps_right r1 _ s []); [|reflexivity|exact K]. intros; apply gi_alt1; auto.
    + eapply (caps_right r2 _ s []); [|reflexivity|exact K]. intros; apply gi_alt2; auto.
  - rewrite ways_star in H. eapply again_caps; eauto.
  - cbn in H. apply in_map_iff in H as ([s1 c1] & Q & H). injection Q as <- <-. cbn [fst snd] in *.
    pose proof (ways_sound _ _ _ _ _ H) as (w & E & M). apply IH in H as (n1 & -> & K). exists ((k, name, taken s s1) :: n1).
    split; [reflexivity|]. intros k' name' x [Q|I].
    + injection Q as <- <- <-. exists r, [], []. split; [constructor|]. subst s. rewrite taken_app. split; [exact M|reflexivity].
    + revert I. apply (caps_right r (RGroup k name r) s [] s s1 n1); [intros; apply gi_group; auto|reflexivity|exact K].
Qed.
Lemma group_of_in k c x : group_of k c = Some x -> exists name, In (k, name, x) c.
Proof.
  induction c as [|[[k' name] y] c IH]; cbn; [discriminate|]. destruct (Nat.eqb_spec k k') as [->|].
  - intros [= ->]. eauto.
  - intros H. apply IH in H as [nm H]. eauto.
Qed.
End RegexProofs.
