(** The reader of pattern texts ([compile], Regex.v) reads exactly the texts
    described by RegexText.v. *)
From Verif Require Export RegexText RegexProofs.
From Verif Require Import Json.
From Coq Require Import Lia.
Local Open Scope N_scope.

(** ** characters *)
Ltac nb := repeat match goal with
  | |- context [N.eqb ?a ?b] => destruct (N.eqb_spec a b)
  | |- context [N.leb ?a ?b] => destruct (N.leb_spec a b)
  end; try reflexivity; try discriminate; try lia; auto.
Lemma pat_space_blank c : pat_space c = true <-> blank c.
Proof. unfold pat_space, blank. nb; cbn; split; intros; try discriminate; lia. Qed.
Lemma hexdigit_hex c d : hexdigit c = Some d <-> hex c d.
Proof.
  unfold hexdigit. split.
  - destruct (N.leb_spec 48 c), (N.leb_spec c 57); cbn.
    1: intros Q; injection Q as <-; constructor; lia.
    all: destruct (N.leb_spec 65 c), (N.leb_spec c 70); cbn;
      try (intros Q; injection Q as <-; replace (c - 55) with (c - 65 + 10) by lia; constructor; lia).
    all: destruct (N.leb_spec 97 c), (N.leb_spec c 102); cbn; try discriminate.
    all: intros Q; injection Q as <-; replace (c - 87) with (c - 97 + 10) by lia; apply hex_lower; lia.
  - intros [x H|x H|x H]; nb; cbn; f_equal; lia.
Qed.
Lemma alnum_spec c : alnum c = false <-> c < 128 /\ ~ ascii_alnum c.
Proof. unfold alnum, ascii_alnum. nb; cbn; split; intros; try discriminate; try lia. Qed.

(** ** numbers *)
Inductive hex_from : N -> list char -> N -> Prop :=
| hf_nil a : hex_from a [] a
| hf_cons a c d w n : hex c d -> hex_from (a * 16 + d) w n -> hex_from a (c :: w) n.
Lemma hex_from_app a w n c d : hex_from a w n -> hex c d -> hex_from a (w ++ [c]) (16 * n + d).
Proof.
  intros H D. induction H as [a|a c' d' w n D' H IH]; cbn.
  - eapply hf_cons; [exact D|]. replace (a * 16 + d) with (16 * a + d) by lia. constructor.
  - eapply hf_cons; eauto.
Qed.
Lemma hex_from_number w n : hex_number w n -> hex_from 0 w n.
Proof. induction 1; [constructor|apply hex_from_app; auto]. Qed.
Lemma number_hex_from w : forall u a n, hex_number u a -> hex_from a w n -> hex_number (u ++ w) n.
Proof.
  induction w as [|c w IH]; intros u a n U H; inversion H; subst; [rewrite app_nil_r; auto|].
  rewrite <- (app_cons_assoc u c w) || (change (c :: w) with ([c] ++ w); rewrite app_assoc).
  eapply IH; [|eassumption]. replace (a * 16 + d) with (16 * a + d) by lia. constructor; auto.
Qed.
Lemma hexnum_spec k : forall a s n rest,
  hexnum k a s = Some (n, rest) <-> exists w, s = w ++ rest /\ List.length w = k /\ hex_from a w n.
Proof.
  induction k as [|k IH]; intros a s n rest.
  - destruct s; cbn; (split; [intros Q; injection Q as <- <-; exists []; repeat constructor|]);
      intros (w & Q & L & H); destruct w; try discriminate; cbn in Q; inversion H; subst; reflexivity.
  - destruct s as [|c s]; cbn.
    + split; [discriminate|]. intros (w & Q & L & H). destruct w; discriminate.
    + destruct (hexdigit c) as [d|] eqn:D.
      * rewrite IH. apply hexdigit_hex in D as D'. split.
        -- intros (w & -> & L & H). exists (c :: w). cbn. split; auto. split; [lia|]. econstructor; eauto.
        -- intros (w & Q & L & H). destruct w as [|c' w]; [discriminate|]. cbn in Q. injection Q as <- Q.
           exists w. split; auto. cbn in L. split; [lia|]. inversion H; subst.
           match goal with H : hex c _ |- _ => apply hexdigit_hex in H; rewrite D in H; injection H as <- end. auto.
      * split; [discriminate|]. intros (w & Q & L & H). destruct w as [|c' w]; [discriminate|]. cbn in Q. injection Q as <- Q.
        inversion H; subst. match goal with H : hex c _ |- _ => apply hexdigit_hex in H; congruence end.
Qed.
Lemma hexnum_iff k s n rest :
  hexnum k 0 s = Some (n, rest) <-> exists w, s = w ++ rest /\ List.length w = k /\ hex_number w n.
Proof.
  rewrite hexnum_spec. split; intros (w & Q & L & H); exists w; split; auto; split; auto.
  - apply (number_hex_from w [] 0 n); auto. constructor.
  - apply hex_from_number; auto.
Qed.

Inductive dec_from : N -> list char -> N -> Prop :=
| df_nil a : dec_from a [] a
| df_cons a c w n : 48 <= c <= 57 -> dec_from (a * 10 + (c - 48)) w n -> dec_from a (c :: w) n.
Lemma dec_from_app a w n c : dec_from a w n -> 48 <= c <= 57 -> dec_from a (w ++ [c]) (10 * n + (c - 48)).
Proof.
  intros H D. induction H as [a|a c' w n D' H IH]; cbn.
  - eapply df_cons; [exact D|]. replace (a * 10 + (c - 48)) with (10 * a + (c - 48)) by lia. constructor.
  - eapply df_cons; eauto.
Qed.
Lemma dec_from_number w n : dec_number w n -> dec_from 0 w n.
Proof. induction 1; [constructor|apply dec_from_app; auto]. Qed.
Lemma number_dec_from w : forall u a n, dec_number u a -> dec_from a w n -> dec_number (u ++ w) n.
Proof.
  induction w as [|c w IH]; intros u a n U H; inversion H; subst; [rewrite app_nil_r; auto|].
  change (c :: w) with ([c] ++ w); rewrite app_assoc.
  eapply IH; [|eassumption]. replace (a * 10 + (c - 48)) with (10 * a + (c - 48)) by lia. constructor; auto.
Qed.
Lemma read_count_spec s : forall a n rest,
  read_count a s = Some (n, rest) <-> exists w, s = w ++ 125 :: rest /\ dec_from a w n.
Proof.
  induction s as [|c s IH]; intros a n rest; cbn.
  - split; [discriminate|]. intros ([|] & Q & _); discriminate.
  - destruct (N.eqb_spec c 125) as [->|C].
    + split.
      * intros Q. injection Q as <- <-. exists []. repeat constructor.
      * intros (w & Q & H). destruct w as [|c' w]; cbn in Q; injection Q; intros; subst; inversion H; subst; [reflexivity|lia].
    + destruct (N.leb_spec 48 c), (N.leb_spec c 57); cbn.
      1:{ rewrite IH. split.
          - intros (w & -> & H'). exists (c :: w). split; auto. constructor; auto.
          - intros (w & Q & H'). destruct w as [|c' w]; cbn in Q; injection Q; intros; subst; [lia|]. inversion H'; subst. eauto. }
      all: split; [discriminate|]; intros (w & Q & H'); destruct w as [|c' w]; cbn in Q; injection Q; intros; subst; inversion H'; subst; lia.
Qed.
Lemma read_count_iff s n rest :
  read_count 0 s = Some (n, rest) <-> exists w, s = w ++ 125 :: rest /\ dec_number w n.
Proof.
  rewrite read_count_spec. split; intros (w & Q & H); exists w; split; auto.
  - apply (number_dec_from w [] 0 n); auto. constructor.
  - apply dec_from_number; auto.
Qed.

(** ** escapes and classes *)
Lemma read_escape_iff s i rest : read_escape s = Some (i, rest) <-> exists w, s = w ++ rest /\ escape w i.
Proof.
  destruct s as [|c s]; cbn [read_escape].
  - split; [discriminate|]. intros (w & Q & H). destruct w; [|discriminate]. inversion H.
  - split.
    + destruct (N.eqb_spec c 110) as [->|]; [intros Q; injection Q as <- <-; exists [110]; split; [reflexivity|constructor]|].
      destruct (N.eqb_spec c 114) as [->|]; [intros Q; injection Q as <- <-; exists [114]; split; [reflexivity|constructor]|].
      destruct (N.eqb_spec c 116) as [->|]; [intros Q; injection Q as <- <-; exists [116]; split; [reflexivity|constructor]|].
      destruct (N.eqb_spec c 115) as [->|]; [intros Q; injection Q as <- <-; exists [115]; split; [reflexivity|constructor]|].
      destruct (N.eqb_spec c 100) as [->|]; [intros Q; injection Q as <- <-; exists [100]; split; [reflexivity|constructor]|].
      destruct (N.eqb_spec c 120) as [->|].
      { destruct (hexnum 2 0 s) as [[x t]|] eqn:H; cbn [option_map]; [|discriminate]. intros Q; injection Q as <- <-.
        apply hexnum_iff in H as (w & -> & L & H). exists (120 :: w). split; [reflexivity|constructor; auto]. }
      destruct (N.eqb_spec c 117) as [->|].
      { destruct (hexnum 4 0 s) as [[x t]|] eqn:H; cbn [option_map]; [|discriminate]. intros Q; injection Q as <- <-.
        apply hexnum_iff in H as (w & -> & L & H). exists (117 :: w). split; [reflexivity|constructor; auto]. }
      destruct (N.eqb_spec c 85) as [->|].
      { destruct (hexnum 8 0 s) as [[x t]|] eqn:H; [|discriminate]. destruct (N.leb_spec x 1114111); [|discriminate].
        intros Q; injection Q as <- <-.
        apply hexnum_iff in H as (w & -> & L & H). exists (85 :: w). split; [reflexivity|constructor; auto; lia]. }
      destruct (alnum c) eqn:A; [discriminate|]. intros Q; injection Q as <- <-. apply alnum_spec in A as [A1 A2].
      exists [c]. split; [reflexivity|constructor; auto].
    + intros (w & Q & H). inversion H; subst; cbn in Q; injection Q; clear Q; intros; subst; try reflexivity.
      1,2: match goal with H : hex_number ?w ?n |- _ => cbn [N.eqb Pos.eqb]; rewrite (proj2 (hexnum_iff _ _ n rest)) by (exists w; auto); reflexivity end.
      * cbn [N.eqb Pos.eqb]. rewrite (proj2 (hexnum_iff _ _ n rest)) by (exists w0; auto).
        destruct (N.leb_spec n 1114111); [reflexivity|lia].
      * match goal with A : ~ ascii_alnum ?c |- _ => rewrite (proj2 (alnum_spec c)) by auto end.
        unfold ascii_alnum in *. nb; exfalso; subst; lia.
Qed.
Lemma read_elem_iff s i rest : read_elem s = Some (i, rest) /\ hd 0 s <> 93 <-> exists w, s = w ++ rest /\ element w i.
Proof.
  destruct s as [|c s]; cbn.
  - split; [intros [Q _]; discriminate|]. intros (w & Q & H). destruct w; [|discriminate]. inversion H.
  - split.
    + intros [H C]. destruct (N.eqb_spec c 92) as [->|].
      * apply read_escape_iff in H as (w & -> & H). exists (92 :: w). split; [reflexivity|constructor; auto].
      * injection H as <- <-. exists [c]. split; [reflexivity|constructor; auto].
    + intros (w & Q & H). inversion H; subst; cbn in Q; injection Q; clear Q; intros; subst.
      * cbn. split; [|lia]. apply read_escape_iff. eauto.
      * subst. split; auto. match goal with |- context [N.eqb ?c 92] => destruct (N.eqb_spec c 92); [contradiction|reflexivity] end.
Qed.
Lemma element_cons w i : element w i -> exists c w', w = c :: w' /\ c <> 93.
Proof. intros H. inversion H; subst; eexists _, _; split; eauto; lia. Qed.
Lemma escape_pos w i : escape w i -> (1 <= List.length w)%nat.
Proof. intros H. inversion H; cbn; lia. Qed.

Lemma read_class_sound n : forall s l rest, read_class n s = Some (l, rest) -> exists w, s = w ++ rest /\ in_brackets w l.
Proof.
  induction n as [|n IH]; intros s l rest; [discriminate|]. cbn [read_class].
  destruct s as [|c s]; [discriminate|]. destruct (N.eqb_spec c 93) as [->|C].
  - intros Q. injection Q as <- <-. exists [93]. split; [reflexivity|constructor].
  - destruct (read_elem (c :: s)) as [[i s1]|] eqn:R; [|discriminate].
    destruct (proj1 (read_elem_iff _ _ _) (conj R C)) as (w & -> & Ew). cbv zeta.
    assert (Single : forall l rest, (forall c w'', s1 = 45 :: c :: w'' -> c = 93) ->
      option_map (fun x => (i :: fst x, snd x)) (read_class n s1) = Some (l, rest) -> exists w0, w ++ s1 = w0 ++ rest /\ in_brackets w0 l).
    { intros l' rest' NR. destruct (read_class n s1) as [[l1 r1]|] eqn:K; [|discriminate]. cbn. intros Q. injection Q as <- <-.
      apply IH in K as (w1 & -> & K). exists (w ++ w1). split; [rewrite app_assoc; reflexivity|]. constructor; auto.
      intros d w'' ->. eapply NR. reflexivity. }
    destruct s1 as [|d [|e s2]]; try (apply Single; congruence).
    destruct (N.eqb_spec d 45) as [->|D]; cbn [andb]; [|apply Single; intros ? ? Q; injection Q; congruence].
    destruct (N.eqb_spec e 93) as [->|En]; cbn [negb]; [apply Single; intros ? ? Q; injection Q; congruence|].
    cbn [tl]. destruct i as [a| | |]; try discriminate. destruct (read_elem (e :: s2)) as [[[b| | |] s3]|] eqn:R2; try discriminate.
    destruct (proj1 (read_elem_iff _ _ _) (conj R2 En)) as (w2 & Q2 & Ew2). rewrite Q2.
    destruct (N.leb_spec a b); [|discriminate]. destruct (read_class n s3) as [[l1 r1]|] eqn:K; [|discriminate]. cbn.
    intros Q. injection Q as <- <-. apply IH in K as (w1 & -> & K). exists (w ++ [45] ++ w2 ++ w1).
    split; [rewrite <- !app_assoc; reflexivity|]. apply ib_range; auto.
Qed.
Lemma in_brackets_end w l : in_brackets w l -> exists u, w = u ++ [93].
Proof.
  induction 1 as [|w i w' l Ew H [u ->] NR|wa a wb b w l Ea Eb AB H [u ->]].
  - exists []. reflexivity.
  - exists (w ++ u). rewrite app_assoc. reflexivity.
  - exists (wa ++ [45] ++ wb ++ u). rewrite <- !app_assoc. reflexivity.
Qed.
Lemma read_class_complete w l : in_brackets w l -> forall n rest, (List.length w <= n)%nat -> read_class n (w ++ rest) = Some (l, rest).
Proof.
  induction 1 as [|w i w' l Ew H IH NR|wa a wb b w l Ea Eb AB H IH]; intros n rest L.
  - destruct n; [cbn in L; lia|]. reflexivity.
  - destruct (element_cons _ _ Ew) as (c & w1 & -> & C). destruct n; [cbn in L; lia|]. rewrite <- app_assoc.
    cbn [app read_class]. destruct (N.eqb_spec c 93); [contradiction|].
    rewrite (proj1 (proj2 (read_elem_iff (c :: w1 ++ w' ++ rest) i (w' ++ rest)) (ex_intro _ (c :: w1) (conj eq_refl Ew)))).
    cbv zeta. assert (K : read_class n (w' ++ rest) = Some (l, rest)) by (apply IH; cbn in L; rewrite app_length in L; lia).
    destruct (in_brackets_end _ _ H) as (u & Hu).
    assert (N0 : w' <> []) by (rewrite Hu; intros Q; apply app_eq_nil in Q as [_ Q]; discriminate).
    rewrite K. destruct (w' ++ rest) as [|d [|e s2]] eqn:Q; try reflexivity.
    destruct (N.eqb_spec d 45) as [->|D]; [|reflexivity]. destruct w' as [|d' [|e' w'']]; [destruct (N0 eq_refl)| |].
    + exfalso. cbn in Q. injection Q as -> _. destruct u as [|? u]; cbn in Hu; [discriminate|]. injection Hu as _ Hu. symmetry in Hu. apply app_eq_nil in Hu as [_ Hu]. discriminate.
    + cbn in Q. injection Q as -> -> _. rewrite (NR e w'' eq_refl). reflexivity.
  - destruct (element_cons _ _ Ea) as (c & w1 & -> & C). destruct n; [cbn in L; lia|]. rewrite <- !app_assoc.
    cbn [app read_class]. destruct (N.eqb_spec c 93); [contradiction|].
    rewrite (proj1 (proj2 (read_elem_iff (c :: w1 ++ 45 :: wb ++ w ++ rest) (IChar a) (45 :: wb ++ w ++ rest)) (ex_intro _ (c :: w1) (conj eq_refl Ea)))).
    cbv zeta. destruct (element_cons _ _ Eb) as (c2 & w2 & -> & C2). cbn [app]. destruct (N.eqb_spec c2 93); [contradiction|]. cbn [negb andb N.eqb Pos.eqb tl].
    rewrite (proj1 (proj2 (read_elem_iff (c2 :: w2 ++ w ++ rest) (IChar b) (w ++ rest)) (ex_intro _ (c2 :: w2) (conj eq_refl Eb)))).
    destruct (N.leb_spec a b); [|lia]. rewrite IH by (cbn in L; rewrite !app_length in L; cbn in L; rewrite app_length in L; lia). reflexivity.
Qed.

(** ** blanks *)
Lemma skip_blanks v b x : blanks v b -> skip_space v (b ++ x) = skip_space v x.
Proof.
  intros [->|[-> F]]; [reflexivity|]. induction F as [|c b C F IH]; [reflexivity|]. cbn.
  apply pat_space_blank in C. rewrite C. exact IH.
Qed.
Lemma skip_split v s : exists b, blanks v b /\ s = b ++ skip_space v s.
Proof.
  destruct v.
  - induction s as [|c s (b & [->|[_ B]] & Q)].
    + exists []. split; [left|]; reflexivity.
    + cbn. destruct (pat_space c) eqn:P.
      * exists [c]. cbn. rewrite Q at 1. split; [right|reflexivity]. split; auto. constructor; [apply pat_space_blank; auto|constructor].
      * exists []. split; [left|]; reflexivity.
    + cbn. destruct (pat_space c) eqn:P.
      * exists (c :: b). cbn. rewrite Q at 1. split; [right|reflexivity]. split; auto. constructor; auto. apply pat_space_blank; auto.
      * exists []. split; [left|]; reflexivity.
  - exists []. split; [left; reflexivity|]. destruct s; reflexivity.
Qed.
Lemma skip_head v s c s' : skip_space v s = c :: s' -> v && pat_space c = false.
Proof.
  destruct v; cbn; [|auto]. revert c s'. induction s as [|x s IH]; intros c s' H; cbn in H; [discriminate|].
  destruct (pat_space x) eqn:P; [eauto|]. injection H as -> ->. exact P.
Qed.
Lemma skip_stop v c s : v && pat_space c = false -> skip_space v (c :: s) = c :: s.
Proof. intros H. cbn. rewrite H. reflexivity. Qed.
Lemma skip_idem v s : skip_space v (skip_space v s) = skip_space v s.
Proof.
  destruct (skip_space v s) as [|c s'] eqn:Q; [reflexivity|]. apply skip_stop. eapply skip_head; eauto.
Qed.
Lemma read_seq_skip n v k s : read_seq n v k (skip_space v s) = read_seq n v k s.
Proof. destruct n; [reflexivity|]. cbn [read_seq]. rewrite skip_idem. reflexivity. Qed.

(** ** repetitions *)
Lemma nullable_iff sp dg r : nullable r = true <-> matches sp dg r [].
Proof.
  induction r as [|neg l| |r1 IH1 r2 IH2|r1 IH1 r2 IH2|r IH|k name r IH]; cbn.
  - split; [constructor|reflexivity].
  - split; [discriminate|]. intros M. inversion M.
  - split; [discriminate|]. intros M. inversion M.
  - rewrite andb_true_iff, IH1, IH2. split.
    + intros [A B]. apply (m_cat _ _ r1 r2 [] []); auto.
    + intros M. inversion M as [| | |a b w1 w2 M1 M2 Q1 Q2| | | | |]; subst. apply app_eq_nil in Q2 as [-> ->]. auto.
  - rewrite orb_true_iff, IH1, IH2. split.
    + intros [A|A]; [apply m_alt1|apply m_alt2]; auto.
    + intros M. inversion M; auto.
  - split; [constructor|reflexivity].
  - rewrite IH. split; [intros; constructor; auto|]. intros M. inversion M; auto.
Qed.
Lemma not_nullable r : nullable r = false <-> forall sp dg, ~ matches sp dg r [].
Proof.
  split.
  - intros H sp dg M. apply nullable_iff in M. congruence.
  - intros H. destruct (nullable r) eqn:Q; auto. apply (nullable_iff (fun _ => false) (fun _ => false)) in Q. destruct (H _ _ Q).
Qed.
Lemma times_copies n r : times n r = copies n r.
Proof. induction n as [|[|n] IH]; [reflexivity|reflexivity|]. change (RCat r (times (S n) r) = RCat r (copies (S n) r)). rewrite IH. reflexivity. Qed.

Definition noq (v : bool) (s : list char) : Prop :=
  match skip_space v s with c :: _ => quant c = false | [] => True end.
Lemma quant_spec c : quant c = true <-> c = 42 \/ c = 43 \/ c = 63 \/ c = 123.
Proof. unfold quant. nb; cbn; split; intros; try discriminate; try lia; auto. Qed.
Lemma once_ok v y (r : regex) : noq v y ->
  match skip_space v y with c :: _ => if quant c then None else Some (r, y) | [] => Some (r, y) end = Some (r, y).
Proof. unfold noq. destruct (skip_space v y) as [|c s]; auto. intros ->. reflexivity. Qed.
Lemma once_inv v y (r : regex) r' y' :
  match skip_space v y with c :: _ => if quant c then None else Some (r, y) | [] => Some (r, y) end = Some (r', y') ->
  r' = r /\ y' = y /\ noq v y.
Proof.
  unfold noq. destruct (skip_space v y) as [|c s]; [intros Q; injection Q as <- <-; auto|].
  destruct (quant c) eqn:C; [discriminate|]. intros Q. injection Q as <- <-. auto.
Qed.
Lemma read_quant_complete v a wq q b y : blanks v b -> repeated a wq q -> noq v y ->
  exists y', read_quant v a (b ++ wq ++ y) = Some (q, y') /\ skip_space v y' = skip_space v y.
Proof.
  intros B R N. unfold read_quant. rewrite (skip_blanks _ _ _ B).
  inversion R as [|H|H|H|w n W D Z]; subst.
  - cbn [app]. exists (skip_space v y). rewrite skip_idem. split; auto. unfold noq in N.
    destruct (skip_space v y) as [|c s]; auto.
    destruct (N.eqb_spec c 42) as [->|]; [discriminate|]. destruct (N.eqb_spec c 43) as [->|]; [discriminate|].
    destruct (N.eqb_spec c 63) as [->|]; [discriminate|]. destruct (N.eqb_spec c 123) as [->|]; [discriminate|]. reflexivity.
  - exists y. split; auto. cbn [app]. rewrite skip_stop by (destruct v; reflexivity). cbn [N.eqb Pos.eqb].
    rewrite (proj2 (not_nullable a) H). apply once_ok; auto.
  - exists y. split; auto. cbn [app]. rewrite skip_stop by (destruct v; reflexivity). cbn [N.eqb Pos.eqb].
    rewrite (proj2 (not_nullable a) H). apply once_ok; auto.
  - exists y. split; auto. cbn [app]. rewrite skip_stop by (destruct v; reflexivity). cbn [N.eqb Pos.eqb]. apply once_ok; auto.
  - exists y. split; auto. cbn [app]. rewrite skip_stop by (destruct v; reflexivity). cbn [N.eqb Pos.eqb].
    rewrite <- app_assoc. cbn [app]. destruct w as [|d w]; [contradiction|].
    pose proof (proj2 (read_count_iff ((d :: w) ++ 125 :: y) n y) (ex_intro _ (d :: w) (conj eq_refl D))) as RC.
    match goal with |- context [read_count 0 ?x] => replace (read_count 0 x) with (Some (n, y)) by (symmetry; exact RC) end. clear RC. cbn [app].
    assert (Dd : 48 <= d <= 57).
    { apply dec_from_number in D. inversion D; subst. auto. }
    destruct (N.eqb_spec d 125); [lia|]. destruct (N.eqb_spec n 0); [contradiction|].
    rewrite times_copies. apply once_ok; auto.
Qed.
Lemma read_quant_sound v a s q y : read_quant v a s = Some (q, y) ->
  exists b wq, s = b ++ wq ++ y /\ blanks v b /\ repeated a wq q.
Proof.
  unfold read_quant. cbv zeta. destruct (skip_split v s) as (b & B & Q). remember (skip_space v s) as t eqn:Ht. clear Ht. subst s. destruct t as [|c s'].
  - intros H. injection H as <- <-. exists b, []. split; auto. split; auto. constructor.
  - destruct (N.eqb_spec c 42) as [->|].
    { destruct (nullable a) eqn:Nu; [discriminate|]. intros H. apply once_inv in H as (-> & -> & _).
      exists b, [42]. split; auto. split; auto. constructor. apply not_nullable; auto. }
    destruct (N.eqb_spec c 43) as [->|].
    { destruct (nullable a) eqn:Nu; [discriminate|]. intros H. apply once_inv in H as (-> & -> & _).
      exists b, [43]. split; auto. split; auto. constructor. apply not_nullable; auto. }
    destruct (N.eqb_spec c 63) as [->|].
    { intros H. apply once_inv in H as (-> & -> & _). exists b, [63]. split; auto. split; auto. constructor. }
    destruct (N.eqb_spec c 123) as [->|].
    { destruct s' as [|d s2]; [discriminate|]. destruct (N.eqb_spec d 125) as [|D]; [discriminate|].
      destruct (read_count 0 (d :: s2)) as [[k s3]|] eqn:R; [|discriminate].
      destruct (N.eqb_spec k 0); [discriminate|]. intros H. apply once_inv in H as (-> & -> & _).
      apply read_count_iff in R as (w & Qw & Dw). exists b, (123 :: w ++ [125]). rewrite Qw.
      split; [cbn; rewrite <- app_assoc; reflexivity|]. split; auto. rewrite times_copies. constructor; auto.
      intros ->. cbn in Qw. injection Qw as -> _. contradiction. }
    intros H. injection H as <- <-. exists b, []. split; auto. split; auto. constructor.
Qed.

(** ** group names *)
Lemma chars_string x : forall y, ascii_chars x = ascii_chars y -> x = y.
Proof.
  unfold ascii_chars. induction x as [|a x IH]; intros [|b y] H; cbn in H; try discriminate; [reflexivity|].
  injection H as H1 H2. rewrite (IH _ H2). f_equal.
  rewrite <- (ascii_N_embedding a), <- (ascii_N_embedding b), H1. reflexivity.
Qed.
Lemma read_name_iff s name rest : Forall (fun c => c < 256) s ->
  read_name s = Some (name, rest) <-> s = ascii_chars name ++ 62 :: rest /\ ~ In 62 (ascii_chars name).
Proof.
  intros F. revert name rest. induction F as [|c s C F IH]; intros name rest; cbn [read_name].
  - split; [discriminate|]. intros [Q _]. destruct (ascii_chars name); discriminate.
  - destruct (N.eqb_spec c 62) as [->|N].
    + split.
      * intros Q. injection Q as <- <-. split; [reflexivity|intros []].
      * intros [Q NI]. destruct name as [|a name]; cbn in Q; [injection Q as <-; reflexivity|].
        injection Q as Q _. exfalso. apply NI. left. auto.
    + destruct (read_name s) as [[nm t]|] eqn:R; cbn [option_map fst snd].
      * destruct (proj1 (IH nm t) eq_refl) as [Q NI]. split.
        -- intros H. injection H as <- <-. subst s. unfold ascii_chars in *. cbn. rewrite N_ascii_embedding by auto. split; auto.
           intros [H|H]; auto.
        -- intros [H NI']. destruct name as [|a name]; cbn in H; [injection H as H _; contradiction|]. injection H as H1 H2.
           pose proof (proj2 (IH name rest) (conj H2 (fun K => NI' (or_intror K)))) as K. injection K as -> ->.
           rewrite H1, ascii_N_embedding. reflexivity.
      * split; [discriminate|]. intros [H NI']. destruct name as [|a name]; cbn in H; [injection H as H _; contradiction|].
        injection H as H1 H2. discriminate (proj2 (IH name rest) (conj H2 (fun K => NI' (or_intror K)))).
Qed.
Lemma name_start_spec c : name_start c = true <-> (ascii_alnum c \/ c = 95) /\ ~ (48 <= c <= 57).
Proof. unfold name_start, ascii_alnum. nb; cbn; split; intros; try discriminate; try lia; auto. Qed.
Lemma name_char_spec c : name_char c = true <-> ascii_alnum c \/ c = 95.
Proof. unfold name_char, name_start, ascii_alnum. nb; cbn; split; intros; try discriminate; try lia; auto. Qed.
Lemma ident_name_iff name : ident_name name = true <-> name_text name (ascii_chars name).
Proof.
  unfold ident_name, name_text. split.
  - intros H. split; auto. destruct (ascii_chars name) as [|c w]; [discriminate|]. apply andb_true_iff in H as [H1 H2].
    exists c, w. apply name_start_spec in H1 as [H1 H3]. split; auto. split; auto. split; auto.
    apply Forall_forall. intros x X. apply name_char_spec. rewrite forallb_forall in H2. auto.
  - intros (_ & c & w & -> & H1 & H2 & H3). rewrite (proj2 (name_start_spec c)) by auto. cbn.
    apply forallb_forall. intros x X. apply name_char_spec. rewrite Forall_forall in H3. auto.
Qed.
Lemma name_no_close name w : name_text name w -> ~ In 62 w.
Proof.
  intros (_ & c & w' & -> & H1 & _ & H3) [->|H]; unfold ascii_alnum in *; [lia|]. rewrite Forall_forall in H3. specialize (H3 _ H). lia.
Qed.
Lemma chars_bytes x : Forall (fun c => c < 256) (ascii_chars x).
Proof. unfold ascii_chars. induction x as [|a x IH]; cbn; constructor; auto. apply N_ascii_bounded. Qed.
Lemma string_of_chars w : Forall (fun c => c < 256) w -> exists x, w = ascii_chars x.
Proof.
  induction 1 as [|c w C F [x ->]]; [exists EmptyString; reflexivity|].
  exists (String (ascii_of_N c) x). unfold ascii_chars. cbn. rewrite N_ascii_embedding by auto. reflexivity.
Qed.

(** ** texts that are read *)
Ltac side := solve [assumption | reflexivity | constructor; solve [assumption | lia] | unfold char in *; lia].
Section Read.
Variable v : bool.
Definition stops (rest : list char) : Prop := match rest with [] => True | c :: _ => c = 41 \/ c = 124 end.
Definition closes (rest : list char) : Prop := match rest with [] => True | c :: _ => c = 41 end.

Lemma ordinary_head c : ordinary v c -> v && pat_space c = false /\ quant c = false /\ c <> 41 /\ c <> 124.
Proof.
  intros [O B]. cbn in O. split; [|split; [|split]]; try (intros ->; tauto).
  - destruct v; [|reflexivity]. destruct (B eq_refl) as [_ B']. cbn. destruct (pat_space c) eqn:P; auto.
    apply pat_space_blank in P. contradiction.
  - destruct (quant c) eqn:Q; auto. apply quant_spec in Q. exfalso. apply O. intuition.
Qed.
Lemma atom_head k w a k' : atom v k w a k' ->
  exists c w', w = c :: w' /\ v && pat_space c = false /\ quant c = false /\ c <> 41 /\ c <> 124.
Proof.
  intros H. destruct H; cbn [app]; do 2 eexists; (split; [reflexivity|]);
    try (apply ordinary_head; assumption); repeat split; try lia; destruct v; reflexivity.
Qed.
Lemma seq_noq k w r k' rest : sequence v k w r k' -> stops rest -> noq v (w ++ rest).
Proof.
  intros H St. unfold noq. inversion H as [? ? B|? ? ? ? ? ? ? ? ? ? ? B1 A]; subst.
  - rewrite (skip_blanks _ _ _ B). destruct rest as [|c rest]; [exact I|]. cbn in St.
    rewrite skip_stop by (destruct St as [-> | ->]; destruct v; reflexivity). destruct St as [-> | ->]; reflexivity.
  - destruct (atom_head _ _ _ _ A) as (c & w' & -> & P & Q & _). rewrite <- !app_assoc. rewrite (skip_blanks _ _ _ B1).
    cbn [app]. rewrite skip_stop by exact P. exact Q.
Qed.

Scheme choice_mut := Minimality for choice Sort Prop
with sequence_mut := Minimality for sequence Sort Prop
with atom_mut := Minimality for atom Sort Prop.
Combined Scheme text_mut from choice_mut, sequence_mut, atom_mut.

Lemma read_complete :
  (forall k w r k', choice v k w r k' -> Forall (fun c => c < 256) w -> forall n rest, Forall (fun c => c < 256) rest -> closes rest ->
     (3 * List.length w + 3 <= n)%nat -> read_alt n v k (w ++ rest) = Some (r, k', rest)) /\
  (forall k w r k', sequence v k w r k' -> Forall (fun c => c < 256) w -> forall n rest, Forall (fun c => c < 256) rest -> stops rest ->
     (3 * List.length w + 2 <= n)%nat -> read_seq n v k (w ++ rest) = Some (r, k', rest)) /\
  (forall k w r k', atom v k w r k' -> Forall (fun c => c < 256) w -> forall n c w' rest, Forall (fun c => c < 256) rest -> w = c :: w' ->
     (3 * List.length w + 1 <= n)%nat -> read_atom n v k c (w' ++ rest) = Some (r, k', rest)).
Proof.
  apply text_mut.
  - intros k w r k' _ IH Fw n rest F C L. destruct n as [|n]; [lia|]. cbn [read_alt].
    rewrite IH; auto; [|destruct rest; cbn in *; auto|unfold char in *; lia].
    destruct rest as [|c rest]; [reflexivity|]. cbn in C. subst c. reflexivity.
  - intros k w1 r1 k1 w2 r2 k2 _ IH1 _ IH2 Fw n rest F C L. rewrite !app_length in L. cbn in L. destruct n as [|n]; [lia|].
    apply Forall_app in Fw as [F1 F2]. cbn in F2. inversion F2; subst.
    cbn [read_alt]. rewrite <- !app_assoc. rewrite IH1; auto; [|apply Forall_app; split; auto; apply Forall_app; auto|cbn; auto|unfold char in *; lia].
    cbn [app]. cbn [N.eqb Pos.eqb]. rewrite IH2 by side. reflexivity.
  - intros k w B Fw n rest F St L. destruct n as [|n]; [lia|]. cbn [read_seq]. rewrite (skip_blanks _ _ _ B).
    destruct rest as [|c rest]; [reflexivity|]. cbn in St.
    rewrite skip_stop by (destruct St as [-> | ->]; destruct v; reflexivity). destruct St as [-> | ->]; reflexivity.
  - intros k b1 wa a k1 b2 wq q w r k2 B1 A IHa B2 R Sq IHs Fw n rest F St L.
    rewrite !app_length in L. apply Forall_app in Fw as [_ Fw]. apply Forall_app in Fw as [Fa Fw].
    apply Forall_app in Fw as [Fb Fw]. apply Forall_app in Fw as [Fq Fw].
    destruct (atom_head _ _ _ _ A) as (c & w' & -> & P & Q & C1 & C2). destruct n as [|n]; [lia|].
    cbn [read_seq]. rewrite <- !app_assoc. rewrite (skip_blanks _ _ _ B1). cbn [app]. rewrite skip_stop by exact P.
    destruct (N.eqb_spec c 41); [contradiction|]. destruct (N.eqb_spec c 124); [contradiction|]. cbn [orb].
    cbn [List.length] in L. assert (Fr : Forall (fun c => c < 256) (b2 ++ wq ++ w ++ rest)) by (repeat (apply Forall_app; split; auto)).
    rewrite (IHa Fa n c w' _ Fr eq_refl) by (cbn [List.length]; unfold char in *; lia).
    destruct (read_quant_complete v a wq q b2 (w ++ rest) B2 R (seq_noq _ _ _ _ _ Sq St)) as (y' & -> & Y).
    rewrite <- (read_seq_skip n v k1 y'), Y, read_seq_skip. rewrite IHs by side. reflexivity.
  - intros k c O Fw n c' w' rest F Q L. injection Q as <- <-. destruct n as [|n]; [cbn in L; lia|]. cbn [app read_atom].
    destruct (ordinary_head _ O) as (_ & Qc & _ & _). destruct O as [O B]. cbn in O.
    destruct (N.eqb_spec c 40); [subst; tauto|]. destruct (N.eqb_spec c 91); [subst; tauto|]. destruct (N.eqb_spec c 92); [subst; tauto|].
    destruct (N.eqb_spec c 46); [subst; tauto|]. rewrite Qc. destruct (N.eqb_spec c 94); [subst; tauto|]. destruct (N.eqb_spec c 36); [subst; tauto|].
    destruct v; cbn [orb andb]; [|reflexivity]. destruct (N.eqb_spec c 35); [subst; destruct (B eq_refl); tauto|reflexivity].
  - intros k w i E Fw n c' w' rest F Q L. injection Q as <- <-. destruct n as [|n]; [cbn in L; lia|]. cbn [read_atom N.eqb Pos.eqb].
    rewrite (proj2 (read_escape_iff _ i rest)) by eauto. reflexivity.
  - intros k Fw n c' w' rest F Q L. injection Q as <- <-. destruct n as [|n]; [cbn in L; lia|]. reflexivity.
  - intros k w l Bk Nl H Fw n c' w' rest F Q L. injection Q as <- <-. destruct n as [|n]; [cbn in L; lia|]. cbn [read_atom N.eqb Pos.eqb].
    destruct (in_brackets_end _ _ Bk) as (u & Hu).
    destruct w as [|d w]; [destruct u; discriminate|]. cbn [app]. cbn in H. destruct (N.eqb_spec d 94); [contradiction|].
    destruct (N.eqb_spec d 93) as [->|D].
    + exfalso. inversion Bk as [|w0 i w1 l0 E0 B0 N0 Q0|w0 a0 w1 b0 w2 l0 E0 E1 N0 B0 Q0]; subst; [contradiction| |];
        destruct (element_cons _ _ E0) as (x & y & -> & X); cbn in Q0; injection Q0; intros; subst; contradiction.
    + change (d :: w ++ rest) with ((d :: w) ++ rest). rewrite (read_class_complete _ _ Bk); [reflexivity|]. rewrite app_length. unfold char in *; lia.
  - intros k w l Bk Nl Fw n c' w' rest F Q L. injection Q as <- <-. destruct n as [|n]; [cbn in L; lia|]. cbn [app read_atom N.eqb Pos.eqb].
    destruct (in_brackets_end _ _ Bk) as (u & Hu).
    destruct w as [|d w]; [destruct u; discriminate|]. cbn [app].
    destruct (N.eqb_spec d 93) as [->|D].
    + exfalso. inversion Bk as [|w0 i w1 l0 E0 B0 N0 Q0|w0 a0 w1 b0 w2 l0 E0 E1 N0 B0 Q0]; subst; [contradiction| |];
        destruct (element_cons _ _ E0) as (x & y & -> & X); cbn in Q0; injection Q0; intros; subst; contradiction.
    + change (d :: w ++ rest) with ((d :: w) ++ rest). rewrite (read_class_complete _ _ Bk); [reflexivity|]. rewrite app_length. unfold char in *; lia.
  - intros k w r k' _ IH Fw n c' w' rest F Q L. injection Q as <- <-. destruct n as [|n]; [cbn in L; lia|].
    cbn [app] in Fw. inversion Fw as [|? ? _ Fw1]; subst. inversion Fw1 as [|? ? _ Fw2]; subst. inversion Fw2 as [|? ? _ Fw3]; subst. apply Forall_app in Fw3 as [Fw' _].
    cbn [app read_atom N.eqb Pos.eqb]. rewrite <- app_assoc. cbn in L. rewrite app_length in L. rewrite IH by side. reflexivity.
  - intros k w r k' _ IH H Fw n c' w' rest F Q L. injection Q as <- <-. destruct n as [|n]; [cbn in L; lia|].
    cbn [app] in Fw. inversion Fw as [|? ? _ Fw1]; subst. apply Forall_app in Fw1 as [Fw1 _].
    cbn [app read_atom N.eqb Pos.eqb]. rewrite <- app_assoc. cbn in L. rewrite app_length in L.
    specialize (IH Fw1 n (41 :: rest) ltac:(constructor; auto; lia) eq_refl ltac:(unfold char in *; lia)). cbn [app].
    unfold char in *. destruct (w ++ 41 :: rest) as [|d s'] eqn:Q; [destruct w; discriminate|].
     destruct (N.eqb_spec d 63) as [->|D]; [destruct w as [|x w]; cbn in Q; injection Q; intros; subst; cbn in H; congruence|].
    rewrite IH. reflexivity.
  - intros k name wn w r k' Nm _ IH Fw n c' w' rest F Q L. injection Q as <- <-. destruct n as [|n]; [cbn in L; lia|].
    cbn [app] in Fw. inversion Fw as [|? ? _ Fw1]; subst. inversion Fw1 as [|? ? _ Fw2]; subst. inversion Fw2 as [|? ? _ Fw3]; subst.
    inversion Fw3 as [|? ? _ Fw4]; subst. apply Forall_app in Fw4 as [Fn Fw4]. inversion Fw4 as [|? ? _ Fw5]; subst. apply Forall_app in Fw5 as [Fw5 _].
    cbn [app read_atom N.eqb Pos.eqb]. rewrite <- !app_assoc. cbn [app]. rewrite <- app_assoc. cbn [app].
    pose proof (name_no_close _ _ Nm) as NC. pose proof (proj1 Nm) as Qn. subst wn.
    assert (Fr : Forall (fun c => c < 256) (ascii_chars name ++ 62 :: w ++ 41 :: rest)).
    { apply Forall_app; split; auto. constructor; [lia|]. apply Forall_app; split; auto. constructor; [lia|auto]. }
    pose proof (proj2 (read_name_iff _ name (w ++ 41 :: rest) Fr) (conj eq_refl NC)) as RN. unfold char in *. rewrite RN.
    rewrite (proj2 (ident_name_iff name)) by exact Nm.
    cbn in L. rewrite !app_length in L. cbn in L. rewrite app_length in L. rewrite IH by side. reflexivity.
Qed.

Definition bytes (s : list char) : Prop := Forall (fun c => c < 256) s.
Lemma bytes_app a b : bytes (a ++ b) -> bytes a /\ bytes b.
Proof. apply Forall_app. Qed.
Lemma hd_app c s w rest : c :: s = w ++ 41 :: rest -> c <> 63 -> hd 0 w <> 63.
Proof. destruct w as [|x w]; cbn; intros Q C; [lia|]. injection Q as -> _. exact C. Qed.

Lemma read_sound n :
  (forall k s r k' rest, bytes s -> read_alt n v k s = Some (r, k', rest) -> exists w, s = w ++ rest /\ choice v k w r k') /\
  (forall k s r k' rest, bytes s -> read_seq n v k s = Some (r, k', rest) -> exists w, s = w ++ rest /\ sequence v k w r k') /\
  (forall k c s r k' rest, bytes s -> v && pat_space c = false -> c <> 41 -> c <> 124 ->
     read_atom n v k c s = Some (r, k', rest) -> exists w, c :: s = w ++ rest /\ atom v k w r k').
Proof.
  induction n as [|n (IHa & IHs & IHt)]; [repeat split; intros; discriminate|]. split; [|split].
  - intros k s r k' rest B. cbn [read_alt]. destruct (read_seq n v k s) as [[[r1 k1] s1]|] eqn:R1; [|discriminate].
    apply IHs in R1 as (w1 & -> & S1); auto. destruct s1 as [|c s1].
    + intros Q. injection Q as <- <- <-. exists w1. split; auto. constructor; auto.
    + destruct (N.eqb_spec c 124) as [->|].
      * apply bytes_app in B as [_ B]. inversion B as [|? ? _ B']; subst.
        destruct (read_alt n v k1 s1) as [[[r2 k2] s2]|] eqn:R2; [|discriminate]. intros Q. injection Q as <- <- <-.
        apply IHa in R2 as (w2 & -> & S2); auto. exists (w1 ++ [124] ++ w2).
        split; [rewrite <- !app_assoc; reflexivity|]. eapply ch_more; eauto.
      * intros Q. injection Q as <- <- <-. exists w1. split; auto. constructor; auto.
  - intros k s r k' rest B. cbn [read_seq]. destruct (skip_split v s) as (b & Bb & Q).
    pose proof (skip_head v s) as Hd. remember (skip_space v s) as t eqn:Ht. clear Ht. subst s. apply bytes_app in B as [_ B].
    destruct t as [|c s].
    + intros Q. injection Q as <- <- <-. exists b. split; auto. constructor; auto.
    + specialize (Hd c s eq_refl). destruct (N.eqb_spec c 41) as [->|C1]; cbn [orb].
      { intros Q. injection Q as <- <- <-. exists b. split; auto. constructor; auto. }
      destruct (N.eqb_spec c 124) as [->|C2]; cbn [orb].
      { intros Q. injection Q as <- <- <-. exists b. split; auto. constructor; auto. }
      inversion B as [|? ? _ B']; subst.
      destruct (read_atom n v k c s) as [[[a k1] s1]|] eqn:RA; [|discriminate].
      apply IHt in RA as (wa & Qa & A); auto. rewrite Qa in B |- *. apply bytes_app in B as [_ B].
      destruct (read_quant v a s1) as [[q s2]|] eqn:RQ; [|discriminate].
      apply read_quant_sound in RQ as (b2 & wq & -> & Bb2 & R). apply bytes_app in B as [_ B]. apply bytes_app in B as [_ B].
      destruct (read_seq n v k1 s2) as [[[r3 k3] s3]|] eqn:RS; [|discriminate]. intros Q. injection Q as <- <- <-.
      apply IHs in RS as (w & -> & Sq); auto. exists (b ++ wa ++ b2 ++ wq ++ w).
      split; [rewrite <- !app_assoc; reflexivity|]. eapply sq_more; eauto.
  - intros k c s r k' rest B Bl C1 C2. cbn [read_atom].
    assert (Close : forall (o : option (regex * nat * list char)) (f : regex -> regex) (r : regex) (k' : nat) (rest : list char),
      match o with Some (r, k, d :: s) => if d =? 41 then Some (f r, k, s) else None | _ => None end = Some (r, k', rest) ->
      exists r0, o = Some (r0, k', 41 :: rest) /\ r = f r0).
    { intros [[[r0 k0] [|d s0]]|] f r1 k1 rest1; try discriminate. destruct (N.eqb_spec d 41) as [->|]; [|discriminate].
      intros Q. injection Q as <- <- <-. eauto. }
    destruct (N.eqb_spec c 40) as [->|N1].
    { destruct s as [|d s']; [discriminate|]. destruct (N.eqb_spec d 63) as [->|D].
      - destruct s' as [|e s2]; [discriminate|]. inversion B as [|? ? _ B1]; subst. inversion B1 as [|? ? _ B2]; subst.
        destruct (N.eqb_spec e 58) as [->|E1].
        + intros H. apply Close in H as (r0 & H & ->). apply IHa in H as (w & -> & Ch); auto.
          exists ([40; 63; 58] ++ w ++ [41]). split; [cbn; rewrite <- app_assoc; reflexivity|]. apply am_plain; auto.
        + destruct (N.eqb_spec e 80) as [->|E2]; [|discriminate]. destruct s2 as [|f s3]; [discriminate|]. inversion B2 as [|? ? _ B3]; subst.
          destruct (N.eqb_spec f 60) as [->|E3]; [|discriminate].
          destruct (read_name s3) as [[name s4]|] eqn:RN; [|discriminate]. apply read_name_iff in RN as [-> NI]; auto.
          destruct (ident_name name) eqn:Id; [|discriminate]. apply ident_name_iff in Id.
          apply bytes_app in B3 as [_ B3]. inversion B3 as [|? ? _ B4]; subst.
          intros H. apply Close in H as (r0 & H & ->). apply IHa in H as (w & -> & Ch); auto.
          exists ([40; 63; 80; 60] ++ ascii_chars name ++ [62] ++ w ++ [41]).
          split; [cbn; rewrite <- !app_assoc; cbn; rewrite <- app_assoc; reflexivity|]. apply am_named; auto.
      - intros H. apply Close in H as (r0 & H & ->). apply IHa in H as (w & Q & Ch); auto.
        exists ([40] ++ w ++ [41]). split; [rewrite Q; cbn; rewrite <- app_assoc; reflexivity|]. apply am_group; auto.
        eapply hd_app; eauto. }
    assert (Ne : forall w l d s', in_brackets w l -> d :: s' = w ++ rest -> d <> 93 -> l <> [] /\ hd 0 w = d).
    { intros w l d s' Bk Q D. inversion Bk as [|w0 i0 w1 l0 E0|w0 a0 w1 b0 w2 l0 E0]; subst.
      - cbn in Q. injection Q; intros; contradiction.
      - destruct (element_cons _ _ E0) as (x & y & -> & _). cbn in Q. injection Q as -> _. split; [discriminate|reflexivity].
      - destruct (element_cons _ _ E0) as (x & y & -> & _). cbn in Q. injection Q as -> _. split; [discriminate|reflexivity]. }
    destruct (N.eqb_spec c 91) as [->|N2].
    { destruct s as [|d s']; [discriminate|]. destruct (N.eqb_spec d 94) as [->|D].
      - destruct s' as [|e s2]; [discriminate|]. destruct (N.eqb_spec e 93) as [->|E1]; [discriminate|].
        destruct (read_class _ (e :: s2)) as [[l t]|] eqn:RC; cbn [option_map fst snd]; [|discriminate]. intros Q. injection Q as <- <- <-.
        apply read_class_sound in RC as (w & Qw & Bk). exists (91 :: 94 :: w). split; [rewrite Qw; reflexivity|].
        destruct (Ne _ _ _ _ Bk Qw E1) as [Nl _]. constructor; auto.
      - destruct (N.eqb_spec d 93) as [->|E1]; [discriminate|].
        destruct (read_class _ (d :: s')) as [[l t]|] eqn:RC; cbn [option_map fst snd]; [|discriminate]. intros Q. injection Q as <- <- <-.
        apply read_class_sound in RC as (w & Qw & Bk). exists (91 :: w). split; [rewrite Qw; reflexivity|].
        destruct (Ne _ _ _ _ Bk Qw E1) as [Nl Hd]. constructor; auto. rewrite Hd. auto. }
    destruct (N.eqb_spec c 92) as [->|N3].
    { destruct (read_escape s) as [[i t]|] eqn:RE; cbn [option_map fst snd]; [|discriminate]. intros Q. injection Q as <- <- <-.
      apply read_escape_iff in RE as (w & -> & Es). exists (92 :: w). split; [reflexivity|]. constructor; auto. }
    destruct (N.eqb_spec c 46) as [->|N4].
    { intros Q. injection Q as <- <- <-. exists [46]. split; [reflexivity|]. constructor. }
    destruct (quant c) eqn:Qc; [discriminate|]. destruct (N.eqb_spec c 94) as [|N5]; [discriminate|].
    destruct (N.eqb_spec c 36) as [|N6]; [discriminate|]. cbn [orb].
    destruct (v && (c =? 35)) eqn:V5; [discriminate|]. intros Q. injection Q as <- <- <-.
    exists [c]. split; [reflexivity|]. constructor. split.
    + assert (Qn : ~ (c = 42 \/ c = 43 \/ c = 63 \/ c = 123)) by (rewrite <- quant_spec; congruence).
      cbn. intros K. repeat destruct K as [K|K]; try (subst; contradiction); try (apply Qn; subst; tauto).
    + intros V. rewrite V in *. cbn in Bl, V5. split.
      * intros ->. discriminate.
      * intros K. apply pat_space_blank in K. congruence.
Qed.
End Read.

(** ** names *)
Lemma named_group_iff k name r : In (k, name) (named r) <-> named_group k name r.
Proof.
  split.
  - intros H. enough (exists body, group_in k (Some name) body r) as [body G] by (econstructor; eauto).
    induction r as [|neg l| |r1 IH1 r2 IH2|r1 IH1 r2 IH2|r IH|k' [nm|] r IH]; cbn in H; try contradiction.
    + apply in_app_iff in H as [H|H]; [apply IH1 in H|apply IH2 in H]; destruct H as [b H]; exists b; [apply gi_cat1|apply gi_cat2]; auto.
    + apply in_app_iff in H as [H|H]; [apply IH1 in H|apply IH2 in H]; destruct H as [b H]; exists b; [apply gi_alt1|apply gi_alt2]; auto.
    + destruct (IH H) as [b G]. exists b. constructor; auto.
    + destruct H as [Q|H]; [injection Q as -> ->; exists r; constructor|]. destruct (IH H) as [b G]. exists b. constructor; auto.
    + destruct (IH H) as [b G]. exists b. constructor; auto.
  - intros [body r' G]. induction G as [|r1 r2 G IH|r1 r2 G IH|r1 r2 G IH|r1 r2 G IH|r0 G IH|k' [nm|] r0 G IH]; cbn; auto; apply in_or_app; auto.
Qed.
Lemma names_ok_iff r : names_ok (named r) = true <->
  forall k1 k2 name, named_group k1 name r -> named_group k2 name r -> k1 = k2.
Proof.
  unfold names_ok. rewrite forallb_forall. split.
  - intros H k1 k2 name N1 N2. apply named_group_iff in N1, N2. specialize (H _ N1). rewrite forallb_forall in H. specialize (H _ N2).
    cbn in H. rewrite String.eqb_refl in H. cbn in H. apply Nat.eqb_eq in H. exact H.
  - intros H [k1 n1] N1. apply forallb_forall. intros [k2 n2] N2. cbn. destruct (String.eqb_spec n1 n2) as [->|]; [|reflexivity].
    cbn. apply Nat.eqb_eq. apply named_group_iff in N1, N2. eauto.
Qed.

Theorem compile_iff v pat r : compile v pat = Some r <-> pattern_text v (ascii_chars pat) r.
Proof.
  unfold compile, pattern_text. split.
  - destruct (read_alt _ v 1 (ascii_chars pat)) as [[[r0 k] [|? ?]]|] eqn:R; try discriminate.
    destruct (names_ok (named r0)) eqn:N; [|discriminate]. intros Q. injection Q as <-.
    apply read_sound in R as (w & Q & Ch); [|apply chars_bytes]. rewrite app_nil_r in Q. rewrite Q.
    split; [eauto|]. apply names_ok_iff. exact N.
  - intros [[k Ch] N]. pose proof (proj1 (read_complete v) _ _ _ _ Ch (chars_bytes pat) (4 * List.length (ascii_chars pat) + 4)%nat [] ltac:(constructor) I ltac:(lia)) as R.
    rewrite app_nil_r in R. cbv zeta. rewrite R. rewrite (proj2 (names_ok_iff r) N). reflexivity.
Qed.
