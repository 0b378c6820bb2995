(** The regular expressions of the client parsers, as they are written, do what
    the hand-written functions of JsonText.v, JsonScan.v, Readme.v and
    Yamlish.v do. *)
From Verif Require Export RegexProofs.
From Verif Require Import Json JsonText JsonScan JsonTextProofs.
From Coq Require Import Lia.
Local Open Scope N_scope.

Section Pieces.
Variable space digit : char -> bool.
Notation ways := (ways space digit).
Notation again := (again space digit).

(** a pattern without groups *)
Fixpoint plain (r : regex) : bool :=
  match r with
  | REps | RSet _ _ | RDot => true
  | RCat r1 r2 | RAlt r1 r2 => plain r1 && plain r2
  | RStar r => plain r
  | RGroup _ _ _ => false
  end.
Definition rests (r : regex) (s : list char) : list (list char) := map fst (ways r s []).
Definition with_caps (c : captures) (l : list (list char)) : list (list char * captures) := map (fun t => (t, c)) l.

Lemma map_flat_map {X Y Z} (f : Y -> Z) (g : X -> list Y) l : map f (flat_map g l) = flat_map (fun x => map f (g x)) l.
Proof. induction l as [|x l IH]; cbn; [reflexivity|]. rewrite map_app, IH. reflexivity. Qed.
Lemma flat_map_map {X Y Z} (f : X -> Y) (g : Y -> list Z) l : flat_map g (map f l) = flat_map (fun x => g (f x)) l.
Proof. induction l as [|x l IH]; cbn; [reflexivity|]. rewrite IH. reflexivity. Qed.

Lemma flat_map_nil {X Y} (f : X -> list Y) l : (forall x, f x = []) -> flat_map f l = [].
Proof. intros H. induction l as [|x l IH]; cbn; [reflexivity|]. rewrite H, IH. reflexivity. Qed.

Lemma rests_with c l : map fst (with_caps c l) = l.
Proof. unfold with_caps. rewrite map_map. cbn. apply map_id. Qed.

Lemma plain_ways r : plain r = true -> forall s c, ways r s c = with_caps c (rests r s).
Proof.
  induction r as [|neg l| |r1 IH1 r2 IH2|r1 IH1 r2 IH2|r IH|g name r IH]; intros P s c.
  - reflexivity.
  - unfold rests. cbn. destruct s; [reflexivity|]. destruct (in_set _ _ _ _ _); reflexivity.
  - unfold rests. cbn. destruct s; [reflexivity|]. destruct (N.eqb _ _); reflexivity.
  - cbn in P. apply andb_prop in P as [P1 P2]. unfold rests. cbn.
    rewrite (IH1 P1 s c), (IH1 P1 s []). unfold with_caps. rewrite map_flat_map, !flat_map_map. cbn.
    rewrite !map_flat_map. apply flat_map_ext. intros t. rewrite (IH2 P2 t c). reflexivity.
  - cbn in P. apply andb_prop in P as [P1 P2]. unfold rests. cbn.
    rewrite (IH1 P1 s c), (IH2 P2 s c). unfold with_caps. rewrite !map_app. reflexivity.
  - unfold rests. rewrite !ways_star. assert (K : forall n s c, again r n s c = with_caps c (map fst (again r n s []))).
    { clear s c; induction n as [|n IHn]; intros s c; [reflexivity|]. cbn [RegexProofs.again]. unfold with_caps in *.
      rewrite !map_app. f_equal. rewrite (IH P s c), (IH P s []). unfold with_caps. rewrite !flat_map_map. cbn [fst snd].
      rewrite !map_flat_map. apply flat_map_ext. intros t. destruct (Nat.ltb _ _); [apply IHn|reflexivity]. }
    apply K.
  - discriminate.
Qed.
Lemma ways_rests r s c : plain r = true -> ways r s c = with_caps c (rests r s).
Proof. intros. apply plain_ways. exact H. Qed.

Lemma rests_eps s : rests REps s = [s].
Proof. reflexivity. Qed.
Lemma rests_set l s : rests (RSet false l) s =
  match s with x :: s' => if existsb (in_item space digit x) l then [s'] else [] | [] => [] end.
Proof. unfold rests. cbn. unfold in_set. destruct s as [|x s]; [reflexivity|]. cbn. destruct (existsb _ _); reflexivity. Qed.
Lemma rests_cat r1 r2 s : plain r1 = true -> plain r2 = true -> rests (RCat r1 r2) s = flat_map (rests r2) (rests r1 s).
Proof.
  intros P1 P2. unfold rests at 1. cbn. rewrite (ways_rests r1 s [] P1). unfold with_caps. rewrite flat_map_map, map_flat_map.
  reflexivity.
Qed.
Lemma rests_alt r1 r2 s : rests (RAlt r1 r2) s = rests r1 s ++ rests r2 s.
Proof. unfold rests. cbn. apply map_app. Qed.

Fixpoint loop (r : regex) (n : nat) (s : list char) : list (list char) :=
  match n with
  | O => [s]
  | S n => flat_map (fun t => if Nat.ltb (List.length t) (List.length s) then loop r n t else []) (rests r s) ++ [s]
  end.
Lemma rests_star r s : plain r = true -> rests (RStar r) s = loop r (List.length s) s.
Proof.
  intros P. unfold rests. rewrite ways_star. generalize (List.length s) as n. intros n. revert s.
  induction n as [|n IHn]; intros s; [reflexivity|]. cbn [RegexProofs.again loop]. rewrite map_app. f_equal.
  rewrite (ways_rests r s [] P). unfold with_caps. rewrite flat_map_map, map_flat_map. cbn [fst snd].
  apply flat_map_ext. intros t. destruct (Nat.ltb _ _); [apply IHn|reflexivity].
Qed.
(** the loop does not depend on the bound *)
Lemma rests_suffix r s t : In t (rests r s) -> exists w, s = w ++ t.
Proof.
  unfold rests. intros H. apply in_map_iff in H as ([t' c] & <- & H). apply ways_sound in H as (w & E & _). eauto.
Qed.
Lemma loop_bound r : forall n m s, (List.length s <= n)%nat -> (List.length s <= m)%nat -> loop r n s = loop r m s.
Proof.
  induction n as [|n IH]; intros [|m] s Hn Hm; try reflexivity.
  - destruct s; [|cbn in Hn; lia]. cbn. rewrite flat_map_concat_map.
    replace (map _ (rests r [])) with (map (fun _ : list char => @nil (list char)) (rests r [])).
    + induction (rests r []); cbn; auto.
    + apply map_ext. intros t. destruct (Nat.ltb_spec (List.length t) (List.length (@nil char))); cbn in *; [lia|reflexivity].
  - destruct s; [|cbn in Hm; lia]. cbn. rewrite flat_map_concat_map.
    replace (map _ (rests r [])) with (map (fun _ : list char => @nil (list char)) (rests r [])).
    + induction (rests r []); cbn; auto.
    + apply map_ext. intros t. destruct (Nat.ltb_spec (List.length t) (List.length (@nil char))); cbn in *; [lia|reflexivity].
  - cbn [loop]. f_equal. apply flat_map_ext. intros t. destruct (Nat.ltb_spec (List.length t) (List.length s)); [|reflexivity].
    apply IH; lia.
Qed.
Lemma star_step r s : plain r = true ->
  rests (RStar r) s = flat_map (fun t => if Nat.ltb (List.length t) (List.length s) then rests (RStar r) t else []) (rests r s) ++ [s].
Proof.
  intros P. rewrite rests_star by exact P. destruct (List.length s) as [|n] eqn:L.
  - destruct s; [|discriminate]. cbn [loop]. rewrite flat_map_nil; [reflexivity|].
    intros t. destruct (Nat.ltb_spec (List.length t) 0); [lia|reflexivity].
  - cbn [loop]. f_equal. rewrite L. apply flat_map_ext. intros t.
    destruct (Nat.ltb_spec (List.length t) (S n)); [|reflexivity]. rewrite rests_star by exact P. apply loop_bound; lia.
Qed.

(** [found l o s P]: the list [l] of what is left is empty if [o] is [None]; if
    [o] is [Some n], it starts with what is left after [n] characters of [s],
    and everything else in it starts with a character that has [P] *)
Definition headed (P : char -> bool) (t : list char) : Prop := match t with c :: _ => P c = true | [] => False end.
Definition found (l : list (list char)) (o : option nat) (s : list char) (P : char -> bool) : Prop :=
  match o with
  | None => l = []
  | Some n => (n <= List.length s)%nat /\ exists l', l = skipn n s :: l' /\ Forall (headed P) l'
  end.
(** a class that is [p] *)
Definition class_is (l : list item) (p : char -> bool) : Prop := forall c, existsb (in_item space digit c) l = p c.

Lemma star_class l p s : class_is l p -> found (rests (RStar (RSet false l)) s) (Some (span p s)) s p.
Proof.
  intros H. induction s as [|c s IH].
  - rewrite star_step by reflexivity. cbn. split; [lia|]. exists []. split; [reflexivity|constructor].
  - rewrite star_step by reflexivity. rewrite rests_set, H. cbn [span]. destruct (p c) eqn:Q.
    + cbn [flat_map]. replace (Nat.ltb _ _) with true by (symmetry; apply Nat.ltb_lt; cbn; lia).
      destruct IH as (L & l' & E & F). rewrite E. split; [cbn; lia|]. exists (l' ++ [c :: s]). split; [cbn; rewrite app_nil_r; reflexivity|].
      apply Forall_app. split; [exact F|]. constructor; [exact Q|constructor].
    + cbn. split; [lia|]. exists []. split; [reflexivity|constructor].
Qed.
Lemma plus_class l p s : class_is l p ->
  found (rests (RCat (RSet false l) (RStar (RSet false l))) s) (match span p s with O => None | n => Some n end) s p.
Proof.
  intros H. rewrite rests_cat by reflexivity. rewrite rests_set. destruct s as [|c s]; [reflexivity|]. rewrite H. cbn [span].
  destruct (p c) eqn:Q; [|reflexivity]. cbn [flat_map]. rewrite app_nil_r. destruct (star_class l p s H) as (L & l' & E & F).
  split; [cbn; lia|]. exists l'. split; [exact E|exact F].
Qed.
(** what follows a piece and cannot start with a character that has [P] *)
Lemma found_cat r1 r2 s o P : plain r1 = true -> plain r2 = true -> found (rests r1 s) o s P ->
  (forall t, headed P t -> rests r2 t = []) ->
  rests (RCat r1 r2) s = match o with Some n => rests r2 (skipn n s) | None => [] end.
Proof.
  intros P1 P2 F H. rewrite rests_cat by assumption. destruct o as [n|]; [|cbn in F; rewrite F; reflexivity].
  destruct F as (_ & l' & -> & F). cbn. rewrite <- (app_nil_r (rests r2 _)) at 2. f_equal.
  induction F as [|t l' Ht F IH]; cbn; [reflexivity|]. rewrite (H t Ht), IH. reflexivity.
Qed.

Lemma plain_cat r1 r2 : plain r1 = true -> plain r2 = true -> plain (RCat r1 r2) = true.
Proof. intros H1 H2. cbn. rewrite H1, H2. reflexivity. Qed.
Lemma rests_assoc r1 r2 r3 s : plain r1 = true -> plain r2 = true -> plain r3 = true ->
  rests (RCat r1 (RCat r2 r3)) s = rests (RCat (RCat r1 r2) r3) s.
Proof.
  intros P1 P2 P3. rewrite (rests_cat r1 (RCat r2 r3)), (rests_cat (RCat r1 r2) r3) by auto using plain_cat.
  rewrite (rests_cat r1 r2) by auto. induction (rests r1 s) as [|t l IH]; [reflexivity|]. cbn [flat_map].
  rewrite flat_map_app, IH, (rests_cat r2 r3) by auto. reflexivity.
Qed.

#[local] Opaque rests.
(** ** Numbers *)
Definition D : regex := RSet false [IRange 48 57].
Definition PLUS_D : regex := RCat D (RStar D).
Definition NAT : regex := RAlt (lit 48) (RCat (RSet false [IRange 49 57]) (RStar D)).
Definition OPT_MINUS : regex := RAlt (lit 45) REps.
Definition FRAC : regex := RCat (lit 46) PLUS_D.
Definition EXP : regex := RCat (RSet false [IChar 101; IChar 69]) (RCat (RAlt (RSet false [IChar 45; IChar 43]) REps) PLUS_D).
Definition TAIL : regex := RAlt (RCat (RAlt FRAC REps) EXP) FRAC.
Definition INT : regex := RCat OPT_MINUS NAT.
Definition FLOAT : regex := RCat OPT_MINUS (RCat NAT TAIL).

Lemma rests_lit a s : rests (lit a) s = match s with x :: s' => if N.eqb x a then [s'] else [] | [] => [] end.
Proof. unfold lit. rewrite rests_set. destruct s as [|x s]; [reflexivity|]. cbn. rewrite orb_false_r. reflexivity. Qed.
Lemma class_digit : class_is [IRange 48 57] is_digit.
Proof. intros c. cbn. rewrite orb_false_r. reflexivity. Qed.
Lemma star_digit s : found (rests (RStar D) s) (Some (span is_digit s)) s is_digit.
Proof. apply star_class, class_digit. Qed.
Lemma plus_digit s : found (rests PLUS_D s) (digits_len s) s is_digit.
Proof. apply (plus_class [IRange 48 57]), class_digit. Qed.
Lemma found_shift l o s P c : found l o s P -> found l (more 1 o) (c :: s) P.
Proof. destruct o as [n|]; cbn; [|auto]. intros (H & l' & E & F). split; [lia|]. exists l'. auto. Qed.

Lemma nat_found s : found (rests NAT s) (nat_len s) s is_digit.
Proof.
  unfold NAT. rewrite rests_alt, rests_lit, rests_cat by reflexivity. rewrite rests_set. destruct s as [|c s]; [reflexivity|].
  cbn [nat_len existsb in_item]. destruct (N.eqb_spec c 48) as [->|Hc].
  - cbn. split; [lia|]. exists []. auto.
  - rewrite orb_false_r. unfold in_range. destruct ((49 <=? c) && (c <=? 57)); [|reflexivity]. cbn [flat_map].
    rewrite app_nil_r. apply (found_shift _ (Some (span is_digit s))), star_digit.
Qed.
Lemma nat_minus s : rests NAT (45 :: s) = [].
Proof. pose proof (nat_found (45 :: s)) as F. exact F. Qed.
Lemma int_found s : found (rests INT s) (int_len s) s is_digit.
Proof.
  unfold INT, OPT_MINUS. rewrite rests_cat by reflexivity. rewrite rests_alt, rests_lit, rests_eps. destruct s as [|c s]; [reflexivity|].
  cbn [int_len]. destruct (N.eqb_spec c 45) as [->|Hc]; cbn [flat_map app].
  - rewrite nat_minus, !app_nil_r. apply found_shift, nat_found.
  - rewrite app_nil_r. apply nat_found.
Qed.
Lemma frac_found s : found (rests FRAC s) (frac_len s) s is_digit.
Proof.
  unfold FRAC. rewrite rests_cat by reflexivity. rewrite rests_lit. destruct s as [|c s]; [reflexivity|].
  cbn [frac_len]. destruct (N.eqb c 46); [|reflexivity]. cbn [flat_map]. rewrite app_nil_r. apply found_shift, plus_digit.
Qed.
Lemma exp_found s : found (rests EXP s) (exp_len s) s is_digit.
Proof.
  unfold EXP. rewrite rests_cat by reflexivity. rewrite rests_set. destruct s as [|c s]; [reflexivity|].
  cbn [exp_len existsb in_item]. rewrite orb_false_r. destruct ((c =? 101) || (c =? 69)); [|reflexivity].
  cbn [flat_map]. rewrite app_nil_r, rests_cat by reflexivity. rewrite rests_alt, rests_set, rests_eps. destruct s as [|d s]; [reflexivity|].
  cbn [existsb in_item]. rewrite orb_false_r. destruct ((d =? 45) || (d =? 43)) eqn:Q; cbn [flat_map app].
  - rewrite app_nil_r. replace (rests PLUS_D (d :: s)) with (@nil (list char)).
    + rewrite app_nil_r.
      pose proof (found_shift _ _ (d :: s) is_digit c (found_shift _ _ s is_digit d (plus_digit s))) as F.
      destruct (digits_len s); exact F.
    + pose proof (plus_digit (d :: s)) as F. replace (digits_len (d :: s)) with (@None nat) in F; [symmetry; exact F|].
      unfold digits_len. cbn [span]. unfold is_digit, in_range.
      apply orb_prop in Q as [Q|Q]; apply N.eqb_eq in Q as ->; reflexivity.
  - rewrite app_nil_r. apply found_shift, plus_digit.
Qed.
Lemma digit_no p s : headed is_digit s -> (forall c, is_digit c = true -> p c = false) -> match s with c :: _ => p c = false | [] => True end.
Proof. destruct s; cbn; auto. Qed.
Lemma exp_digit t : headed is_digit t -> rests EXP t = [].
Proof.
  intros H. pose proof (exp_found t) as F. replace (exp_len t) with (@None nat) in F; [exact F|].
  destruct t as [|c t]; [reflexivity|]. cbn in H |- *. unfold is_digit, in_range in H. apply andb_prop in H as [H1 H2].
  apply N.leb_le in H1, H2. destruct (N.eqb_spec c 101); [lia|]. destruct (N.eqb_spec c 69); [lia|]. reflexivity.
Qed.
Lemma frac_digit t : headed is_digit t -> rests FRAC t = [].
Proof.
  intros H. pose proof (frac_found t) as F. replace (frac_len t) with (@None nat) in F; [exact F|].
  destruct t as [|c t]; [reflexivity|]. cbn in H |- *. unfold is_digit, in_range in H. apply andb_prop in H as [H1 H2].
  apply N.leb_le in H1, H2. destruct (N.eqb_spec c 46); [lia|]. reflexivity.
Qed.
Lemma rests_tail t : rests TAIL t = (flat_map (rests EXP) (rests FRAC t) ++ rests EXP t) ++ rests FRAC t.
Proof.
  unfold TAIL. rewrite rests_alt, rests_cat by reflexivity. rewrite rests_alt, rests_eps, flat_map_app. cbn [flat_map].
  rewrite app_nil_r. reflexivity.
Qed.
Lemma tail_digit t : headed is_digit t -> rests TAIL t = [].
Proof. intros H. rewrite rests_tail, (frac_digit t H), (exp_digit t H). reflexivity. Qed.
Definition tail_len (s : list char) : option nat :=
  match frac_len s with
  | Some f => match exp_len (skipn f s) with Some e => Some (f + e)%nat | None => Some f end
  | None => exp_len s
  end.
Lemma skipn_plus {X} a b (l : list X) : skipn b (skipn a l) = skipn (a + b) l.
Proof. revert l. induction a as [|a IH]; intros l; [reflexivity|]. destruct l; cbn; [destruct b; reflexivity|apply IH]. Qed.
Lemma tail_first s : match tail_len s with
  | Some n => (n <= List.length s)%nat /\ hd_error (rests TAIL s) = Some (skipn n s)
  | None => rests TAIL s = [] end.
Proof.
  rewrite rests_tail. unfold tail_len. pose proof (frac_found s) as F. destruct (frac_len s) as [f|] eqn:Qf.
  - destruct F as (Lf & l' & E & F). rewrite E. cbn [flat_map].
    replace (flat_map (rests EXP) l') with (@nil (list char)).
    2:{ clear - F. induction F as [|t l Ht F IH]; [reflexivity|]. cbn [flat_map]. rewrite (exp_digit t Ht), <- IH. reflexivity. }
    pose proof (exp_found (skipn f s)) as G. destruct (exp_len (skipn f s)) as [e|].
    + destruct G as (Le & l2 & E2 & _). rewrite skipn_length in Le. split; [lia|]. rewrite E2. cbn. rewrite skipn_plus. reflexivity.
    + split; [lia|]. cbn [found] in G. rewrite G. cbn [app].
      assert (X : rests EXP s = []).
      { pose proof (exp_found s) as X. destruct s as [|c s]; [discriminate|]. cbn in Qf. cbn [exp_len] in X.
        destruct (N.eqb_spec c 46) as [->|]; [|discriminate]. exact X. }
      rewrite X. reflexivity.
  - cbn [found] in F. rewrite F. cbn [flat_map app]. rewrite app_nil_r. pose proof (exp_found s) as G. destruct (exp_len s) as [e|]; [|exact G].
    destruct G as (L & l' & E & _). split; [exact L|]. rewrite E. reflexivity.
Qed.
Lemma float_first s : match float_len s with
  | Some n => (n <= List.length s)%nat /\ hd_error (rests FLOAT s) = Some (skipn n s)
  | None => rests FLOAT s = [] end.
Proof.
  unfold FLOAT. rewrite rests_assoc by reflexivity. fold INT.
  rewrite (found_cat INT TAIL s (int_len s) is_digit) by (auto using int_found, tail_digit).
  unfold float_len. pose proof (int_found s) as F. destruct (int_len s) as [n|]; [|reflexivity]. destruct F as (L & _).
  pose proof (tail_first (skipn n s)) as G. unfold tail_len in G. rewrite skipn_length in G. cbv zeta.
  destruct (frac_len (skipn n s)) as [f|].
  - destruct (exp_len (skipn f (skipn n s))) as [e|]; destruct G as (G1 & G2); (split; [lia|]); rewrite G2, skipn_plus; reflexivity.
  - destruct (exp_len (skipn n s)) as [e|]; cbn [more option_map]; [|exact G]. destruct G as (G1 & G2). split; [lia|].
    rewrite G2, skipn_plus. reflexivity.
Qed.

(** ** Strings *)
Definition HEX : regex := RSet false [IRange 48 57; IRange 97 102; IRange 65 70].
Definition SIMPLE : regex := RSet false [IChar 34; IChar 92; IChar 47; IChar 98; IChar 102; IChar 110; IChar 114; IChar 116].
Definition PLAIN : regex := RSet false [IChar 32; IChar 33; IRange 35 91; IRange 93 1114111].
Definition HEX4 : regex := RCat HEX (RCat HEX (RCat HEX HEX)).
Definition ESC : regex := RCat (lit 92) (RAlt SIMPLE (RCat (lit 117) HEX4)).
Definition ITEM : regex := RAlt PLAIN ESC.
Lemma rests_hex s : rests HEX s = match s with c :: s' => if is_hex c then [s'] else [] | [] => [] end.
Proof. unfold HEX. rewrite rests_set. destruct s as [|c s]; [reflexivity|]. cbn. rewrite orb_false_r, orb_assoc. reflexivity. Qed.
Lemma rests_simple s : rests SIMPLE s = match s with c :: s' => if is_simple c then [s'] else [] | [] => [] end.
Proof. unfold SIMPLE. rewrite rests_set. destruct s as [|c s]; [reflexivity|]. cbn. rewrite orb_false_r, !orb_assoc. reflexivity. Qed.
Lemma rests_plain s : rests PLAIN s = match s with c :: s' => if is_plain c then [s'] else [] | [] => [] end.
Proof. unfold PLAIN. rewrite rests_set. destruct s as [|c s]; [reflexivity|]. cbn. rewrite orb_false_r, !orb_assoc. reflexivity. Qed.
Lemma rests_hex4 s : rests HEX4 s =
  match s with
  | h1 :: h2 :: h3 :: h4 :: t => if is_hex h1 && is_hex h2 && is_hex h3 && is_hex h4 then [t] else []
  | _ => []
  end.
Proof.
  unfold HEX4. rewrite rests_cat, rests_hex by reflexivity. destruct s as [|h1 s]; [reflexivity|].
  destruct (is_hex h1); cbn [flat_map andb]; [|destruct s as [|? [|? [|? ?]]]; reflexivity]. rewrite app_nil_r.
  rewrite rests_cat, rests_hex by reflexivity. destruct s as [|h2 s]; [reflexivity|].
  destruct (is_hex h2); cbn [flat_map andb]; [|destruct s as [|? [|? ?]]; reflexivity]. rewrite app_nil_r.
  rewrite rests_cat, rests_hex by reflexivity. destruct s as [|h3 s]; [reflexivity|].
  destruct (is_hex h3); cbn [flat_map andb]; [|destruct s as [|? ?]; reflexivity]. rewrite app_nil_r.
  rewrite rests_hex. destruct s as [|h4 s]; reflexivity.
Qed.
(** the length of one element of a string *)
Definition item_len (s : list char) : option nat :=
  match s with
  | [] => None
  | c :: s' =>
      if c =? 92 then
        match s' with
        | e :: s'' =>
            if is_simple e then Some 2%nat
            else if e =? 117 then
              match s'' with
              | h1 :: h2 :: h3 :: h4 :: _ => if is_hex h1 && is_hex h2 && is_hex h3 && is_hex h4 then Some 6%nat else None
              | _ => None
              end
            else None
        | [] => None
        end
      else if is_plain c then Some 1%nat else None
  end.
Lemma rests_item s : rests ITEM s = match item_len s with Some n => [skipn n s] | None => [] end.
Proof.
  unfold ITEM, ESC. rewrite rests_alt, rests_plain, rests_cat, rests_lit by reflexivity. destruct s as [|c s]; [reflexivity|].
  cbn [item_len]. destruct (N.eqb_spec c 92) as [->|Hc].
  - change (is_plain 92) with false. cbn [flat_map app]. rewrite app_nil_r, rests_alt, rests_simple, rests_cat, rests_lit by reflexivity.
    destruct s as [|e s]; [reflexivity|]. destruct (is_simple e) eqn:Se.
    + destruct (N.eqb_spec e 117) as [->|]; [discriminate Se|]. reflexivity.
    + cbn [app]. destruct (N.eqb e 117); [|reflexivity]. cbn [flat_map]. rewrite app_nil_r, rests_hex4.
      destruct s as [|h1 [|h2 [|h3 [|h4 s]]]]; try reflexivity. destruct (_ && _); reflexivity.
  - cbn [flat_map]. rewrite app_nil_r. destruct (is_plain c); reflexivity.
Qed.
Lemma item_bound s n : item_len s = Some n -> (1 <= n <= List.length s)%nat.
Proof.
  destruct s as [|c s]; [discriminate|]. cbn [item_len]. destruct (N.eqb c 92).
  - destruct s as [|e s]; [discriminate|]. destruct (is_simple e); [intros [= <-]; cbn; lia|]. destruct (N.eqb e 117); [|discriminate].
    destruct s as [|h1 [|h2 [|h3 [|h4 s]]]]; try discriminate. destruct (_ && _); [|discriminate]. intros [= <-]. cbn. lia.
  - destruct (is_plain c); [|discriminate]. intros [= <-]. cbn. lia.
Qed.
Lemma item_some s n : item_len s = Some n -> body_len s = more n (body_len (skipn n s)) /\ headed (fun c => negb (c =? 34)) s.
Proof.
  destruct s as [|c s]; [discriminate|]. cbn [item_len body_len headed]. destruct (N.eqb_spec c 92) as [->|Hc].
  - destruct s as [|e s]; [discriminate|]. destruct (is_simple e); [intros [= <-]; split; reflexivity|]. destruct (N.eqb e 117); [|discriminate].
    destruct s as [|h1 [|h2 [|h3 [|h4 s]]]]; try discriminate. destruct (_ && _); [|discriminate]. intros [= <-]. split; reflexivity.
  - destruct (is_plain c) eqn:Q; [|discriminate]. intros [= <-]. destruct (N.eqb_spec c 34) as [->|]; [discriminate Q|]. split; reflexivity.
Qed.
Lemma item_none s : item_len s = None -> body_len s = match s with c :: _ => if c =? 34 then Some O else None | [] => None end.
Proof.
  destruct s as [|c s]; [reflexivity|]. cbn [item_len body_len]. destruct (N.eqb_spec c 34) as [->|Hq]; [reflexivity|].
  destruct (N.eqb c 92).
  - destruct s as [|e s]; [reflexivity|]. destruct (is_simple e); [discriminate|]. destruct (N.eqb e 117); [|reflexivity].
    destruct s as [|h1 [|h2 [|h3 [|h4 s]]]]; try reflexivity. destruct (_ && _); [discriminate|reflexivity].
  - destruct (is_plain c); [discriminate|reflexivity].
Qed.
Definition quoted (s t : list char) : option nat :=
  match t with c :: _ => if c =? 34 then Some (List.length s - List.length t)%nat else None | [] => None end.
Lemma star_item : forall k s, (List.length s <= k)%nat -> exists n l', (n <= List.length s)%nat /\
  rests (RStar ITEM) s = skipn n s :: l' /\ Forall (headed (fun c => negb (c =? 34))) l' /\ body_len s = quoted s (skipn n s).
Proof.
  induction k as [|k IH]; intros s Hk.
  - destruct s; [|cbn in Hk; lia]. exists O, []. rewrite star_step, rests_item by reflexivity. cbn. repeat split; auto.
  - rewrite star_step, rests_item by reflexivity. destruct (item_len s) as [m|] eqn:Q.
    + pose proof (item_bound _ _ Q) as B. destruct (item_some _ _ Q) as [E Hd]. cbn [flat_map].
      rewrite skipn_length. replace (Nat.ltb _ _) with true by (symmetry; apply Nat.ltb_lt; lia).
      destruct (IH (skipn m s)) as (n & l' & L & R & F & BL); [rewrite skipn_length; lia|]. rewrite skipn_length in L.
      exists (m + n)%nat, (l' ++ [s]). split; [lia|]. rewrite R, app_nil_r, skipn_plus. split; [reflexivity|]. split.
      * apply Forall_app. split; [exact F|]. constructor; [exact Hd|constructor].
      * rewrite E, BL. unfold quoted. rewrite skipn_plus. destruct (skipn (m + n) s) as [|c t] eqn:T; [reflexivity|].
        destruct (N.eqb c 34); [|reflexivity]. cbn [more option_map]. f_equal.
        rewrite skipn_length. pose proof (skipn_length (m + n) s) as X. rewrite T in X. lia.
    + exists O, []. cbn [flat_map app]. split; [lia|]. split; [reflexivity|]. split; [constructor|].
      rewrite (item_none _ Q). unfold quoted. destruct s as [|c s]; [reflexivity|]. cbn [skipn]. rewrite Nat.sub_diag. reflexivity.
Qed.
Lemma plus_item s : (item_len s = None /\ rests (RCat ITEM (RStar ITEM)) s = []) \/
  exists n l', (1 <= n <= List.length s)%nat /\ rests (RCat ITEM (RStar ITEM)) s = skipn n s :: l' /\
    Forall (headed (fun c => negb (c =? 34))) l' /\ body_len s = quoted s (skipn n s).
Proof.
  rewrite rests_cat, rests_item by reflexivity. destruct (item_len s) as [m|] eqn:Q; [right|left; split; reflexivity].
  cbn [flat_map]. rewrite app_nil_r. pose proof (item_bound _ _ Q) as B. destruct (item_some _ _ Q) as [E _].
  destruct (star_item _ (skipn m s) (le_n _)) as (n & l' & L & R & F & BL). rewrite skipn_length in L.
  exists (m + n)%nat, l'. split; [lia|]. rewrite R, skipn_plus. split; [reflexivity|]. split; [exact F|].
  rewrite E, BL. unfold quoted. rewrite skipn_plus. destruct (skipn (m + n) s) as [|c t] eqn:T; [reflexivity|].
  destruct (N.eqb c 34); [|reflexivity]. cbn [more option_map]. f_equal.
  rewrite skipn_length. pose proof (skipn_length (m + n) s) as X. rewrite T in X. lia.
Qed.
(** a quoted string, with a group around what is between the quotes *)
Definition STRING (k : nat) (name : option string) (r : regex) : regex :=
  RCat (lit 34) (RCat (RGroup k name (RCat ITEM (RStar ITEM))) r).
Lemma ways_cat r1 r2 s c : ways (RCat r1 r2) s c = flat_map (fun w => ways r2 (fst w) (snd w)) (ways r1 s c).
Proof. reflexivity. Qed.
Lemma ways_group k name r s c : ways (RGroup k name r) s c = map (fun w => (fst w, (k, name, taken s (fst w)) :: snd w)) (ways r s c).
Proof. reflexivity. Qed.
Lemma ways_alt r1 r2 s c : ways (RAlt r1 r2) s c = ways r1 s c ++ ways r2 s c.
Proof. reflexivity. Qed.
Lemma ways_lit a s c : ways (lit a) s c = match s with x :: s' => if N.eqb x a then [(s', c)] else [] | [] => [] end.
Proof. rewrite ways_rests by reflexivity. rewrite rests_lit. destruct s as [|x s]; [reflexivity|]. destruct (N.eqb x a); reflexivity. Qed.
Lemma string_ways k name r s c : (forall t c', (forall t', t <> 34 :: t') -> ways r t c' = []) ->
  ways (STRING k name r) s c =
  match string_len s with
  | Some n => ways r (skipn (S n) s) ((k, name, firstn n (skipn 1 s)) :: c)
  | None => []
  end.
Proof.
  intros Hr. unfold STRING. rewrite ways_cat, ways_lit. unfold string_len.
  destruct s as [|q s]; [reflexivity|]. destruct (N.eqb q 34); [|reflexivity].
  cbn [flat_map fst snd]. rewrite app_nil_r, ways_cat, ways_group, (ways_rests (RCat ITEM (RStar ITEM))) by reflexivity.
  unfold with_caps. rewrite map_map, flat_map_map. cbn [fst snd].
  assert (Z : forall l, Forall (headed (fun c => negb (c =? 34))) l ->
    flat_map (fun x => ways r x ((k, name, taken s x) :: c)) l = []).
  { induction 1 as [|t l Ht F IH]; [reflexivity|]. cbn [flat_map]. rewrite Hr, IH; [reflexivity|].
    intros t' ->. cbn in Ht. discriminate. }
  destruct (plus_item s) as [[Q E]|(n & l' & L & E & F & B)]; rewrite E; cbn [flat_map].
  - rewrite (item_none _ Q). destruct s as [|x s]; [reflexivity|]. destruct (N.eqb x 34); reflexivity.
  - rewrite (Z _ F), app_nil_r, B. unfold quoted. pose proof (skipn_length n s) as X. destruct (skipn n s) as [|x t] eqn:T.
    + apply Hr. intros; discriminate.
    + destruct (N.eqb_spec x 34) as [->|Hx]; [|apply Hr; congruence]. cbn [List.length] in X.
      rewrite <- T. unfold taken. rewrite skipn_length. replace (List.length s - (List.length s - n))%nat with n by (unfold char in *; lia).
      destruct n as [|n]; [lia|]. reflexivity.
Qed.
End Pieces.
