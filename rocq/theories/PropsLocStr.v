(** Properties C10, C11, C29 continued: the strings of locations.  Numbers are
    written in decimal notation, and the string of a location determines the
    position in the text. *)
From Coq Require Import DecimalString Decimal DecimalPos DecimalN DecimalFacts DecimalZ Lia.
From Verif Require Import LocSpec Locations Examples.
Local Open Scope Z_scope.

(** ** Specification: reading decimal notation *)
Definition digit_value (c : ascii) : option Z :=
  let n := Z.of_nat (nat_of_ascii c) in
  if (48 <=? n) && (n <=? 57) then Some (n - 48) else None.
Fixpoint read_digits (acc : Z) (s : string) : option Z :=
  match s with
  | EmptyString => Some acc
  | String c s' => match digit_value c with Some d => read_digits (10 * acc + d) s' | None => None end
  end.
(** at least one digit, and no 0 in front *)
Definition decimal (s : string) (z : Z) : Prop :=
  s <> EmptyString /\ read_digits 0 s = Some z /\ (forall t, s = String "0" t -> t = EmptyString).

(** ** Proofs *)
Fixpoint uval (acc : Z) (u : uint) : Z :=
  match u with
  | Nil => acc
  | D0 u => uval (10 * acc) u | D1 u => uval (10 * acc + 1) u | D2 u => uval (10 * acc + 2) u
  | D3 u => uval (10 * acc + 3) u | D4 u => uval (10 * acc + 4) u | D5 u => uval (10 * acc + 5) u
  | D6 u => uval (10 * acc + 6) u | D7 u => uval (10 * acc + 7) u | D8 u => uval (10 * acc + 8) u
  | D9 u => uval (10 * acc + 9) u
  end.
Lemma read_uint u : forall acc, read_digits acc (NilEmpty.string_of_uint u) = Some (uval acc u).
Proof. induction u; intros acc; cbn [NilEmpty.string_of_uint uval]; [reflexivity|..]; cbn [read_digits];
  match goal with |- context[digit_value ?c] => let d := eval vm_compute in (digit_value c) in change (digit_value c) with d end;
  cbv iota beta; rewrite ?Z.add_0_r; apply IHu. Qed.
Lemma uval_acc u : forall p, uval (Zpos p) u = Zpos (Pos.of_uint_acc u p).
Proof.
  induction u; intros p; cbn [uval Pos.of_uint_acc]; [reflexivity|..];
  rewrite <- IHu; f_equal; lia.
Qed.
Lemma uval_Z u : uval 0 u = Z.of_uint u.
Proof.
  unfold Z.of_uint. induction u; cbn [uval Pos.of_uint]; [reflexivity|..]; try apply uval_acc. rewrite <- IHu. reflexivity.
Qed.
Lemma string_uint u : u <> Nil -> NilZero.string_of_uint u = NilEmpty.string_of_uint u.
Proof. destruct u; [congruence|reflexivity..]. Qed.
Lemma to_uint_zhead p : nzhead (Pos.to_uint p) = Pos.to_uint p /\ Pos.to_uint p <> Nil.
Proof.
  pose proof (Unsigned.to_of (Pos.to_uint p)) as H. rewrite DecimalPos.Unsigned.of_to in H. cbn in H.
  pose proof (DecimalPos.Unsigned.to_uint_nonzero p) as Hz. pose proof (DecimalPos.Unsigned.to_uint_nonnil p) as Hn.
  split; [|exact Hn]. unfold unorm in H. destruct (nzhead (Pos.to_uint p)) eqn:Q; try (symmetry; exact H). contradiction.
Qed.

Theorem C10_decimal : forall z, 0 <= z -> decimal (str_of_Z z) z.
Proof.
  intros z Hz. unfold str_of_Z, decimal. destruct z as [|p|p]; [| |lia].
  - cbn. repeat split; [discriminate|]. intros t H. injection H as <-. reflexivity.
  - cbn [Z.to_int NilZero.string_of_int]. destruct (to_uint_zhead p) as [N1 N2]. rewrite string_uint by exact N2. split; [|split].
    + destruct (Pos.to_uint p); try discriminate. contradiction.
    + rewrite read_uint, uval_Z. f_equal. unfold Z.of_uint. rewrite DecimalPos.Unsigned.of_to. reflexivity.
    + intros t H. destruct (Pos.to_uint p) as [|u|u|u|u|u|u|u|u|u|u] eqn:Q; try discriminate.
      exfalso. cbn [nzhead] in N1. pose proof (nzhead_nonzero u (D0 u)) as K. 
      assert (L : forall u, (nb_digits (nzhead u) <= nb_digits u)%nat).
      { clear. induction u; cbn [nzhead nb_digits]; lia. }
      specialize (L u). rewrite N1 in L. cbn in L. lia.
Qed.
(** a sign is written in front of negative numbers (a client's [get_loc] may make some) *)
Theorem C10_negative : forall z, z < 0 -> str_of_Z z = String "-" (str_of_Z (- z)).
Proof. intros [|p|p] H; [lia|lia|reflexivity]. Qed.

Lemma digits_app s : forall acc t x, read_digits acc (s ++ t)%string = Some x -> exists y, read_digits acc s = Some y /\ read_digits y t = Some x.
Proof. induction s as [|c s IH]; cbn; intros acc t x H; [eauto|]. destruct (digit_value c); [eauto|discriminate]. Qed.
Lemma colon_split a : forall b c d za zb acc acc', read_digits acc a = Some za -> read_digits acc' c = Some zb ->
  (a ++ String ":" b = c ++ String ":" d)%string -> a = c /\ b = d.
Proof.
  induction a as [|x a IH]; intros b c d za zb acc acc' Ha Hc H.
  - destruct c as [|y c]; cbn in H; [injection H as E2; auto|]. injection H as E1 E2. subst y. cbn in Hc. discriminate.
  - destruct c as [|y c]; cbn in H; injection H as E1 E2.
    + subst x. cbn in Ha. discriminate.
    + subst y. cbn in Ha, Hc. destruct (digit_value x); [|discriminate]. destruct (IH _ _ _ _ _ _ _ Ha Hc E2) as [-> ->]. auto.
Qed.
Theorem C10_linecol_injective : forall l1 l2, 0 <= loc_line l1 -> 0 <= loc_col l1 -> 0 <= loc_line l2 -> 0 <= loc_col l2 ->
  linecol_fmt l1 = linecol_fmt l2 -> loc_line l1 = loc_line l2 /\ loc_col l1 = loc_col l2.
Proof.
  intros l1 l2 A1 A2 B1 B2 H. unfold linecol_fmt in H. cbn [append] in H.
  destruct (C10_decimal (loc_line l1 + 1)) as (_ & P1 & _); [lia|]. destruct (C10_decimal (loc_col l1 + 1)) as (_ & P2 & _); [lia|].
  destruct (C10_decimal (loc_line l2 + 1)) as (_ & Q1 & _); [lia|]. destruct (C10_decimal (loc_col l2 + 1)) as (_ & Q2 & _); [lia|].
  destruct (colon_split _ _ _ _ _ _ _ _ P1 Q1 H) as [E1 E2]. rewrite E1 in P1. rewrite E2 in P2.
  rewrite Q1 in P1. rewrite Q2 in P2. injection P1 as P1. injection P2 as P2. lia.
Qed.

(** line and column determine the position *)
Lemma line_run_le l : (line_run l <= List.length l)%nat.
Proof. induction l as [|x l IH]; cbn; [lia|]. destruct (newline x); cbn; lia. Qed.
Lemma place_unique l1 : forall l2 l, (l1 = l ++ l2)%list ->
  List.length (filter newline l1) = List.length (filter newline l2) -> line_run l1 = line_run l2 -> l = [].
Proof.
  intros l2 l -> H1 H2. destruct l as [|x l]; [reflexivity|exfalso].
  assert (N : existsb newline (x :: l) = false).
  { destruct (existsb newline (x :: l)) eqn:Q; [|reflexivity]. apply existsb_exists in Q as (y & I & Y). rewrite filter_app, app_length in H1.
    assert (In y (filter newline (x :: l))) by (apply filter_In; auto). destruct (filter newline (x :: l)); [contradiction|cbn in H1; lia]. }
  assert (G : forall k, existsb newline k = false -> line_run (k ++ l2) = (List.length k + line_run l2)%nat).
  { clear. induction k as [|y k IH]; cbn; [reflexivity|]. intros H. apply orb_false_iff in H as [-> H]. rewrite IH by exact H. reflexivity. }
  rewrite (G _ N) in H2. cbn in H2. lia.
Qed.
Lemma true_place_injective s p q : (p <= List.length s)%nat -> (q <= List.length s)%nat ->
  true_line s p = true_line s q -> true_col s p = true_col s q -> p = q.
Proof.
  assert (G : forall p q, (p <= q)%nat -> (q <= List.length s)%nat ->
    true_line s p = true_line s q -> true_col s p = true_col s q -> p = q).
  { clear p q. intros p q L B. unfold true_line, true_col. intros H1 H2.
    set (mid := firstn (q - p) (skipn p s)). assert (E : firstn q s = (firstn p s ++ mid)%list).
    { unfold mid. rewrite <- (firstn_skipn p s) at 1. rewrite firstn_app. rewrite firstn_length_le by lia.
      rewrite firstn_all2 by (rewrite firstn_length_le; lia). reflexivity. }
    assert (Z : rev mid = []).
    { apply (place_unique (rev (firstn q s)) (rev (firstn p s))).
      - rewrite E, rev_app_distr. reflexivity.
      - assert (F : forall l, List.length (filter newline (rev l)) = List.length (filter newline l)).
        { clear. induction l as [|x l IH]; [reflexivity|]. cbn [rev]. rewrite filter_app, app_length, IH. cbn. destruct (newline x); cbn; lia. }
        rewrite !F. lia.
      - congruence. }
    apply (f_equal (@List.length _)) in Z. rewrite rev_length in Z. unfold mid in Z. cbn in Z. rewrite firstn_length, skipn_length in Z. lia. }
  intros A B H1 H2. destruct (Nat.le_gt_cases p q); [apply G; auto|]. symmetry. apply G; auto. lia.
Qed.
(** two places in a text never have the same string *)
Theorem C10_strings_identify : forall s p q, (p <= List.length s)%nat -> (q <= List.length s)%nat ->
  linecol_fmt (true_loc s p) = linecol_fmt (true_loc s q) -> p = q.
Proof.
  intros s p q A B H. apply C10_linecol_injective in H as [H1 H2]; cbn; try lia. cbn in H1, H2.
  apply (true_place_injective s); auto; lia.
Qed.
Theorem C11_strings_identify : forall l1 l2, 0 <= loc_pos l1 -> 0 <= loc_pos l2 ->
  default_fmt_loc l1 = default_fmt_loc l2 -> loc_pos l1 = loc_pos l2.
Proof.
  intros l1 l2 A B H. unfold default_fmt_loc in H. destruct (C10_decimal _ A) as (_ & P & _). destruct (C10_decimal _ B) as (_ & Q & _).
  rewrite H in P. congruence.
Qed.
Print Assumptions C10_decimal.
Print Assumptions C10_negative.
Print Assumptions C10_linecol_injective.
Print Assumptions C10_strings_identify.
Print Assumptions C11_strings_identify.
Example C10_case_string : linecol_fmt (true_loc (ex_str "ab" ++ [10%N] ++ ex_str "cdefghijklmno") 13) = "2:11"%string.
Proof. vm_compute. reflexivity. Qed.
