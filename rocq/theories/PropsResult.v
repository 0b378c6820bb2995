(** C34 ParseResult.fmap and C35 error messages. *)
From Verif Require Export PropsMany.
From Coq Require Import DecimalString Decimal DecimalNat DecimalFacts.

Section ResultFmap.
Context {T : Type}.

(** the value of every repair is mapped, nothing else changes *)
Definition rep_mapped {A B} (f : A -> out B) (r : repair T A) (r' : repair T B) : Prop :=
  f (r_val r) = Ret (r_val r') /\ r_cost r' = r_cost r /\ r_prio r' = r_prio r /\ r_ins r' = r_ins r /\
  r_ops r' = r_ops r /\ r_pos r' = r_pos r /\ r_ctx r' = r_ctx r /\ r_exp r' = r_exp r /\ r_con r' = r_con r.

Lemma rep_fmap_mapped {A B} (f : A -> out B) r r' : rep_fmap f r = Ret r' <-> rep_mapped f r r'.
Proof.
  unfold rep_fmap, rep_mapped. split.
  - intros H. apply obind_ret in H as [v [Hv H]]. injection H as <-. simpl. repeat split; auto.
  - intros (H1 & H2 & H3 & H4 & H5 & H6 & H7 & H8 & H9). rewrite H1. simpl. f_equal. destruct r'; simpl in *; congruence.
Qed.
Lemma mapM_Forall2 {A B} (f : A -> out B) l l' : mapM f l = Ret l' <-> Forall2 (fun x y => f x = Ret y) l l'.
Proof.
  revert l'. induction l as [|x l IH]; intros l'; simpl.
  - split; [intros H; injection H as <-; constructor|inversion 1; reflexivity].
  - split.
    + intros H. apply obind_ret in H as [y [Hy H]]. apply obind_ret in H as [ys [Hys H]]. injection H as <-.
      constructor; auto. apply IH; auto.
    + inversion 1 as [|? y ? ys Hy Hys]; subst. rewrite Hy. simpl. apply IH in Hys. rewrite Hys. reflexivity.
Qed.
Lemma mapM_raise {A B} (f : A -> out B) l e : mapM f l = Raise e <->
  exists l1 x l2, l = l1 ++ x :: l2 /\ f x = Raise e /\ Forall (fun y => exists z, f y = Ret z) l1.
Proof.
  induction l as [|x l IH]; simpl.
  - split; [discriminate|]. intros ([|] & x & l2 & H & _); discriminate.
  - destruct (f x) as [y|e'|] eqn:Hx; simpl.
    + transitivity (mapM f l = Raise e); [destruct (mapM f l); simpl; split; congruence|]. rewrite IH. split.
      * intros (l1 & z & l2 & -> & Hz & Hl). exists (x :: l1), z, l2. split; auto. split; auto. constructor; eauto.
      * intros ([|a l1] & z & l2 & H & Hz & Hl); injection H; intros; subst; [congruence|].
        exists l1, z, l2. split; auto. split; auto. inversion Hl; auto.
    + split.
      * intros H. injection H as ->. exists [], x, l. auto.
      * intros ([|a l1] & z & l2 & H & Hz & Hl); injection H; intros; subst; [congruence|].
        inversion Hl as [|? ? [w Hw] _]; congruence.
    + split; [discriminate|].
      intros ([|a l1] & z & l2 & H & Hz & Hl); injection H; intros; subst; [congruence|].
      inversion Hl as [|? ? [w Hw] _]; congruence.
Qed.

Lemma mapped_key {A B} (f : A -> out B) r1 r1' r2 r2' :
  rep_mapped f r1 r1' -> rep_mapped f r2 r2' -> key_lt r1' r2' = key_lt r1 r2.
Proof.
  intros (_ & H2 & H3 & _ & _ & H6 & _) (_ & K2 & K3 & _ & _ & K6 & _). unfold key_lt.
  rewrite H2, H3, H6, K2, K3, K6. reflexivity.
Qed.
Lemma mapped_min {A B} (f : A -> out B) l l' : Forall2 (rep_mapped f) l l' ->
  forall b b', rep_mapped f b b' -> rep_mapped f (py_min b l) (py_min b' l').
Proof.
  induction 1 as [|x y l l' H HF IH]; intros b b' Hb; simpl; auto.
  apply IH. rewrite (mapped_key f x y b b' H Hb). destruct (key_lt x b); auto.
Qed.

(** [r.fmap(f)]: where [r.unwrap] returns [v], the result returns [f v]; where
    it raises, the same errors are raised *)
Theorem C34_fmap_unwrap A B (f : A -> out B) (r : presult T A) (r' : presult T B) recover :
  presult_fmap f r = Ret r' ->
  match unwrap r recover with
  | Returns v => exists w, f v = Ret w /\ unwrap r' recover = Returns w
  | Raises errors => unwrap r' recover = Raises errors
  end.
Proof.
  unfold presult_fmap. intros H. apply obind_ret in H as [rr [Hr H]]. injection H as <-.
  unfold unwrap. simpl. destruct (pr_result r) as [o|e|rc]; simpl in Hr.
  - apply obind_ret in Hr as [o' [Ho Hr]]. injection Hr as <-. unfold ok_fmap in Ho.
    apply obind_ret in Ho as [w [Hw Ho]]. injection Ho as <-. simpl. eauto.
  - injection Hr as <-. reflexivity.
  - apply obind_ret in Hr as [rc' [Hrc Hr]]. injection Hr as <-. unfold rec_fmap in Hrc.
    apply obind_ret in Hrc as [reps [Hm Hrc]]. injection Hrc as <-. simpl. apply mapM_Forall2 in Hm.
    inversion Hm as [|x y l l' Hx Hl]; subst; [reflexivity|].
    apply rep_fmap_mapped in Hx.
    assert (HF : Forall2 (rep_mapped f) l l').
    { clear - Hl. induction Hl; constructor; auto. apply rep_fmap_mapped; auto. }
    pose proof (mapped_min f l l' HF x y Hx) as (H1 & _ & _ & _ & H5 & _).
    destruct recover; [eauto|]. rewrite H5. reflexivity.
Qed.
(** the repair unwrap picks is the image of the one picked before, with the same
    operations, cost and end position *)
Theorem C34_same_repair A B (f : A -> out B) x l x' l' :
  Forall2 (fun r r' => rep_fmap f r = Ret r') (x :: l) (x' :: l') ->
  rep_mapped f (py_min x l) (py_min x' l').
Proof.
  intros H. inversion H as [|? ? ? ? Hx Hl]; subst. apply mapped_min; [|apply rep_fmap_mapped; auto].
  clear - Hl. induction Hl; constructor; auto. apply rep_fmap_mapped; auto.
Qed.
(** fmap itself returns unless [f] raises on the value of the result or of a
    repair (all offered repairs are mapped) *)
Definition values {A} (r : res T A) : list A :=
  match r with ROk o => [ok_val o] | RErr _ => [] | RRec rc => map r_val (rc_reps rc) end.
Theorem C34_fmap_raises A B (f : A -> out B) (r : presult T A) e :
  presult_fmap f r = Raise e <->
  exists l1 v l2, values (pr_result r) = l1 ++ v :: l2 /\ f v = Raise e /\ Forall (fun y => exists z, f y = Ret z) l1.
Proof.
  transitivity (mapM f (values (pr_result r)) = Raise e); [|apply mapM_raise].
  unfold presult_fmap. destruct (pr_result r) as [o|er|rc]; simpl.
  - unfold ok_fmap. destruct (f (ok_val o)); simpl; split; congruence.
  - split; discriminate.
  - unfold rec_fmap. assert (K : forall l : list (repair T A), mapM (rep_fmap f) l = Raise e <-> mapM f (map r_val l) = Raise e).
    { induction l as [|x l IH]; simpl; [split; discriminate|]. unfold rep_fmap at 1.
      destruct (f (r_val x)); simpl; try (split; congruence).
      destruct (mapM (rep_fmap f) l), (mapM f (map r_val l)); simpl; split; intros H; try congruence;
        try (apply IH; congruence); try (destruct IH as [I1 I2]; (specialize (I1 H) || specialize (I2 H)); congruence). }
    rewrite <- K. destruct (mapM (rep_fmap f) (rc_reps rc)); simpl; split; congruence.
Qed.
End ResultFmap.

(** ** C35 *)
(** the reported repair in parentheses *)
Definition repair_text (op : option rop) : string :=
  match op with
  | None => ""
  | Some (Skip 1) => " (skipped 1 token)"
  | Some (Skip n) => " (skipped " ++ str_of_nat n ++ " tokens)"
  | Some (Insert l) => " (inserted " ++ l ++ ")"
  end%string.

Lemma sapp_assoc (a b c : string) : (a ++ (b ++ c) = (a ++ b) ++ c)%string.
Proof. induction a; simpl; [reflexivity|rewrite IHa; reflexivity]. Qed.
Lemma sapp_nil (a : string) : (a ++ "" = a)%string.
Proof. induction a; simpl; congruence. Qed.
Lemma join_concat sep l : join sep l = String.concat sep l.
Proof. induction l as [|x l IH]; [reflexivity|]. destruct l as [|y l]; [reflexivity|]. simpl in *. congruence. Qed.
Lemma msg_parts e : msg e =
  ("at " ++ ei_loc_str e ++ ": " ++
   match ei_expected e with
   | [] => "unexpected input"
   | [x] => "expected " ++ x
   | l => "expected " ++ join ", " (removelast l) ++ " or " ++ last l ""
   end ++ repair_text (ei_op e))%string.
Proof.
  unfold msg. set (x := match ei_expected e with [] => _ | _ => _ end).
  match goal with |- _ = ("at " ++ _ ++ _ ++ ?y ++ _)%string => set (z := y) end.
  assert (Hx : x = ("at " ++ ei_loc_str e ++ ": " ++ z)%string).
  { unfold x, z. destruct (ei_expected e) as [|a [|b l]]; simpl; rewrite <- ?sapp_assoc; reflexivity. }
  rewrite Hx. clearbody z. clear x Hx. destruct (ei_op e) as [[n|l]|]; simpl; rewrite <- ?sapp_assoc; simpl.
  - destruct n as [|[|n]]; simpl; rewrite <- ?sapp_assoc; reflexivity.
  - rewrite <- ?sapp_assoc. reflexivity.
  - rewrite sapp_nil. reflexivity.
Qed.
(** the three forms of a message *)
Theorem C35_message e :
  (ei_expected e = [] ->
   msg e = ("at " ++ ei_loc_str e ++ ": unexpected input" ++ repair_text (ei_op e))%string) /\
  (forall x, ei_expected e = [x] ->
   msg e = ("at " ++ ei_loc_str e ++ ": expected " ++ x ++ repair_text (ei_op e))%string) /\
  (forall xs x, xs <> [] -> ei_expected e = xs ++ [x] ->
   msg e = ("at " ++ ei_loc_str e ++ ": expected " ++ String.concat ", " xs ++ " or " ++ x
            ++ repair_text (ei_op e))%string).
Proof.
  rewrite msg_parts. split; [|split].
  - intros ->. rewrite <- ?sapp_assoc. reflexivity.
  - intros x ->. rewrite <- ?sapp_assoc. reflexivity.
  - intros xs x Hn ->. destruct xs as [|a xs]; [congruence|].
    assert (L : forall l : list string, exists b l', a :: l ++ [x] = a :: b :: l').
    { intros [|b l]; simpl; eauto. }
    destruct (L xs) as (b & l' & K). change ((a :: xs) ++ [x]) with (a :: xs ++ [x]). rewrite K.
    assert (R : removelast (a :: b :: l') = a :: xs).
    { rewrite <- K. change (a :: xs ++ [x]) with ((a :: xs) ++ [x]). apply removelast_last. }
    assert (S : last (a :: b :: l') ""%string = x).
    { rewrite <- K. change (a :: xs ++ [x]) with ((a :: xs) ++ [x]). apply last_last. }
    cbv zeta. rewrite R, S, join_concat. rewrite <- ?sapp_assoc. reflexivity.
Qed.
(** every expected value is part of the message *)
Lemma concat_in x l : In x l -> exists a b, String.concat ", " l = (a ++ x ++ b)%string.
Proof.
  induction l as [|y [|z l] IH]; simpl; intros H; [contradiction|..].
  - destruct H as [->|[]]. exists ""%string, ""%string. simpl. rewrite sapp_nil. reflexivity.
  - destruct H as [->|H].
    + exists ""%string. eexists. reflexivity.
    + destruct (IH H) as (a & b & K). exists (y ++ ", " ++ a)%string, b. simpl in K. rewrite K.
      rewrite <- ?sapp_assoc. reflexivity.
Qed.
Theorem C35_lists_all e x : In x (ei_expected e) -> exists a b, msg e = (a ++ x ++ b)%string.
Proof.
  intros H. destruct (C35_message e) as (_ & H1 & H2). destruct (ei_expected e) as [|y l] using rev_ind; [contradiction|].
  clear IHl. destruct l as [|z l].
  - destruct H as [->|[]]. rewrite (H1 x eq_refl). exists ("at " ++ ei_loc_str e ++ ": expected ")%string. eexists.
    rewrite <- ?sapp_assoc. reflexivity.
  - rewrite (H2 (z :: l) y); [|discriminate|reflexivity].
    apply in_app_or in H as [H|[->|[]]].
    + apply concat_in in H as (a & b & ->). exists ("at " ++ ei_loc_str e ++ ": expected " ++ a)%string. eexists.
      rewrite <- ?sapp_assoc. reflexivity.
    + exists ("at " ++ ei_loc_str e ++ ": expected " ++ String.concat ", " (z :: l) ++ " or ")%string. eexists.
      rewrite <- ?sapp_assoc. reflexivity.
Qed.
Theorem C35_parse_error errors : parse_error_str errors = String.concat ", " (map msg errors).
Proof. apply join_concat. Qed.
(** counts are in decimal notation *)
Theorem C35_decimal n : exists u, NilZero.uint_of_string (str_of_nat n) = Some u /\ Nat.of_uint u = n.
Proof.
  exists (Nat.to_uint n). split; [|apply Unsigned.of_to]. apply NilZero.usu.
  intros H. pose proof (Unsigned.to_of (Nat.to_uint n)) as K. rewrite Unsigned.of_to, H in K. discriminate.
Qed.
Print Assumptions C34_fmap_unwrap.
Print Assumptions C34_same_repair.
Print Assumptions C34_fmap_raises.
Print Assumptions C35_message.
Print Assumptions C35_lists_all.
Print Assumptions C35_parse_error.
Print Assumptions C35_decimal.
Example C34_case :
  let r := ResultWrapper (RRec (Recd [make_insert 5%Z 1%Z 0 law_c (Loc 0 0 0) "a" ["a"%string];
                                      make_skip 5%Z 2%Z 3 law_c (Loc 0 0 0) 2 ["a"%string]] None (Loc 0 0 0) [] false)) linecol_fmt in
  exists r', presult_fmap (fun x => Ret (x + 10)%Z) r = Ret r' /\ unwrap r true = Returns 1%Z /\
    unwrap r' true = Returns 11%Z /\ unwrap r' false = unwrap r false.
Proof. eexists. split; [reflexivity|]. repeat split. Qed.
Example C35_case :
  msg (ErrorItem (Loc 0 0 0) "1:1" ["a"; "b"; "c"]%string (Some (Skip 12))) =
    "at 1:1: expected a, b or c (skipped 12 tokens)"%string /\
  msg (ErrorItem (Loc 0 0 0) "1:1" [] (Some (Insert "x"))) = "at 1:1: unexpected input (inserted x)"%string.
Proof. split; reflexivity. Qed.
