(** [regexp(pat, group)] for any [group]: a number (groups are counted from 1, 0 is the
    whole match) or a name, and what happens if the pattern has no such group.  In the rest
    of the model [Match.group] does not raise (Prims.v); here it does, and [regexp] is shown
    to be the one of the rest of the model with the exception raised by [fmap]. *)
From Verif Require Export ClientsRe.
From Verif Require Import Examples.
From Verif Require Import Regex RegexSpec RegexProofs RegexText RegexTextProofs RegexTransfer.
From Coq Require Import Lia.

Section Raising.
Context {T A : Type}.
(** [match(stream, pos)], asked for [r.end()] and [r.group(group)], which may raise *)
Variable m : list T -> nat -> option (nat * out (option A)).

(** core/scannerless.py:80-84,97-101,108-112 *)
Definition probe_group (s : list T) (pos : nat) : out (option (nat * A)) :=
  match m s pos with
  | Some (e, g) => v <- g ;; Ret (match v with Some v => Some (e, v) | None => None end)
  | None => Ret None
  end.

(** core/scannerless.py:75-88  _regexp_fast *)
Definition regexp_group_fast : pfast T A :=
  fun s pos c =>
    f <- probe_group s pos ;;
    match f with
    | Some (e, v) => Ret (SOk (Ok v e (update_loc c s e) [] (negb (Nat.eqb e pos))))
    | None => Ret (SErr (Err (get_loc c s pos) [] false))
    end.

(** core/scannerless.py:91-124  _regexp *)
Definition regexp_group_full : pfull T A :=
  fun s pos c ins rem =>
    f <- probe_group s pos ;;
    match f with
    | Some (e, v) => Ret (ROk (Ok v e (update_loc c s e) [] (negb (Nat.eqb e pos))))
    | None =>
        match rem with
        | None => Ret (RErr (Err (get_loc c s pos) [] false))
        | Some _ =>
            let l := get_loc c s pos in
            f <- skip_search s pos (probe_group s) ;;
            match f with
            | Some (cur, (e, v)) =>
                Ret (RRec (Recd [make_skip ins v e (update_loc c s e) l (cur - pos) []] (Some (cur - pos)) l [] false))
            | None => Ret (RErr (Err l [] false))
            end
        end
    end.

(** The same as a parser of the model: the match, with the question for the group as its
    value, and then the question is asked. *)
Definition question (s : list T) (pos : nat) : option (nat * option (out A)) :=
  match m s pos with
  | Some (e, Ret (Some v)) => Some (e, Some (Ret v))
  | Some (e, Ret None) => Some (e, None)
  | Some (e, Raise x) => Some (e, Some (Raise x))
  | Some (e, NoFuel) => Some (e, Some NoFuel)
  | None => None
  end.
Definition regexp_group {V} : gram T V A := GFmap (GRegexp question) (fun g => g).

Lemma probe_group_question s pos :
  probe_group s pos =
  match probe_re question s pos with Some (e, g) => v <- g ;; Ret (Some (e, v)) | None => Ret None end.
Proof. unfold probe_group, probe_re, question. destruct (m s pos) as [[e [[v|]|x|]]|]; reflexivity. Qed.

Lemma group_fast_eq s pos c : regexp_group_fast s pos c = fmap_fast (regexp_fast question) (fun g => g) s pos c.
Proof.
  unfold regexp_group_fast, fmap_fast, regexp_fast. rewrite probe_group_question.
  destruct (probe_re question s pos) as [[e [v|x|]]|]; reflexivity.
Qed.

Lemma skip_loop_question s : forall k cur,
  skip_loop (probe_group s) k cur =
  (f <- skip_loop (fun cur => Ret (probe_re question s cur)) k cur ;;
   match f with Some (cur, (e, g)) => v <- g ;; Ret (Some (cur, (e, v))) | None => Ret None end).
Proof.
  induction k as [|k IH]; intros cur; cbn [skip_loop]; [reflexivity|]. rewrite probe_group_question. cbn [obind].
  destruct (probe_re question s cur) as [[e [v|x|]]|]; cbn; auto.
Qed.

Lemma group_full_eq s pos c ins rem : regexp_group_full s pos c ins rem = fmap_full (regexp_full question) (fun g => g) s pos c ins rem.
Proof.
  unfold regexp_group_full, fmap_full, regexp_full. rewrite probe_group_question.
  destruct (probe_re question s pos) as [[e [v|x|]]|]; try reflexivity. cbn [obind].
  destruct rem as [m0|]; [|reflexivity]. cbn zeta. unfold skip_search. rewrite skip_loop_question.
  destruct (skip_loop _ _ _) as [[[cur [e [v|x|]]]|]|x|]; reflexivity.
Qed.

Theorem C70_raising_group : forall V (E : env T V) n s pos c ins rem,
  fast E (S (S n)) regexp_group s pos c = regexp_group_fast s pos c /\
  full E (S (S n)) regexp_group s pos c ins rem = regexp_group_full s pos c ins rem.
Proof. intros. rewrite group_fast_eq, group_full_eq. split; reflexivity. Qed.

(** if the group never raises it is the parser of the rest of the model *)
Theorem C70_total_group : forall V (E : env T V) m0 n s pos c ins rem,
  (forall s p, m s p = match m0 s p with Some (e, g) => Some (e, Ret g) | None => None end) ->
  fast E (S (S n)) regexp_group s pos c = fast E (S n) (GRegexp m0) s pos c /\
  full E (S (S n)) regexp_group s pos c ins rem = full E (S n) (GRegexp m0) s pos c ins rem.
Proof.
  intros V E m0 n s pos c ins rem H.
  assert (Q : forall s p, probe_group s p = Ret (probe_re m0 s p)).
  { intros s' p. unfold probe_group, probe_re. rewrite H. destruct (m0 s' p) as [[e [v|]]|]; reflexivity. }
  destruct (C70_raising_group V E n s pos c ins rem) as [-> ->].
  unfold regexp_group_fast, regexp_group_full. cbn [fast full]. unfold regexp_fast, regexp_full. rewrite Q. cbn [obind].
  split; [reflexivity|]. destruct (probe_re m0 s pos) as [[e v]|]; [reflexivity|]. destruct rem; [|reflexivity].
  cbn zeta. assert (L : forall k cur, skip_loop (probe_group s) k cur = skip_loop (fun cur => Ret (probe_re m0 s cur)) k cur).
  { induction k as [|k IH]; intros cur; cbn [skip_loop]; [reflexivity|]. rewrite Q. cbn [obind]. destruct (probe_re m0 s cur); auto. }
  unfold skip_search. rewrite L. reflexivity.
Qed.
End Raising.
Print Assumptions C70_raising_group.
Print Assumptions C70_total_group.

(** ** Patterns *)
(** the number or the name of a group *)
Inductive group_ref : Type :=
| ByNumber (k : Z)
| ByName (name : string).

(** the groups of a pattern *)
Fixpoint groups (r : regex) : list (nat * option string) :=
  match r with
  | REps | RSet _ _ | RDot => []
  | RCat r1 r2 | RAlt r1 r2 => groups r1 ++ groups r2
  | RStar r => groups r
  | RGroup k name r => (k, name) :: groups r
  end.
Definition has_group (r : regex) (g : group_ref) : Prop :=
  match g with
  | ByNumber k => k = 0%Z \/ exists j name body, group_in j name body r /\ k = Z.of_nat j
  | ByName name => exists j body, group_in j (Some name) body r
  end.
Lemma groups_in r j name : In (j, name) (groups r) <-> exists body, group_in j name body r.
Proof.
  split.
  - induction r as [|neg l| |r1 IH1 r2 IH2|r1 IH1 r2 IH2|r IH|k nm r IH]; cbn; try tauto.
    + rewrite in_app_iff. intros [H|H]; [apply IH1 in H as [b H]|apply IH2 in H as [b H]]; exists b; [apply gi_cat1|apply gi_cat2]; exact H.
    + rewrite in_app_iff. intros [H|H]; [apply IH1 in H as [b H]|apply IH2 in H as [b H]]; exists b; [apply gi_alt1|apply gi_alt2]; exact H.
    + intros H. apply IH in H as [b H]. exists b. apply gi_star. exact H.
    + intros [H|H]; [injection H as -> ->; exists r; apply gi_here|apply IH in H as [b H]; exists b; apply gi_group; exact H].
  - intros [b H]. induction H; cbn; rewrite ?in_app_iff; auto.
Qed.
Definition no_such_group : exn := UserExn "IndexError: no such group".

Section Patterns.
Variable space digit : char -> bool.

(** Python's [Match.group] *)
Definition ask (r : regex) (g : group_ref) (s rest : list char) (c : captures) : out (option (list char)) :=
  match g with
  | ByNumber k =>
      if Z.eqb k 0 then Ret (Some (taken s rest))
      else if existsb (fun j => Z.eqb k (Z.of_nat (fst j))) (groups r) then Ret (group_of (Z.to_nat k) c)
      else Raise no_such_group
  | ByName name =>
      if existsb (fun j => match snd j with Some name' => String.eqb name name' | None => false end) (groups r)
      then Ret (group_named name c) else Raise no_such_group
  end.
Definition re_ask (r : regex) (g : group_ref) (s : list char) (pos : nat) : option (nat * out (option (list char))) :=
  match re_first space digit r (skipn pos s) with
  | Some (rest, c) => Some (List.length s - List.length rest, ask r g (skipn pos s) rest c)
  | None => None
  end.
(** scannerless.py:35-57  [regexp(pat, group)] *)
Definition regexp_any {V} (pat : string) (g : group_ref) : gram char V (list char) :=
  regexp_group (re_ask (pattern false pat) g).

Lemma ask_raises r g s rest c : ~ has_group r g -> ask r g s rest c = Raise no_such_group.
Proof.
  intros H. destruct g as [k|name]; cbn in *.
  - destruct (Z.eqb_spec k 0); [tauto|].
    destruct (existsb _ _) eqn:Q; [|reflexivity]. apply existsb_exists in Q as ([j nm] & I & Q). apply Z.eqb_eq in Q.
    exfalso. apply H. right. apply groups_in in I as [b I]. eauto.
  - destruct (existsb _ _) eqn:Q; [|reflexivity]. apply existsb_exists in Q as ([j [nm|]] & I & Q); [|discriminate].
    apply String.eqb_eq in Q as <-. exfalso. apply H. apply groups_in in I as [b I]. eauto.
Qed.
Lemma ask_returns r g s rest c : has_group r g -> exists v, ask r g s rest c = Ret v.
Proof.
  intros H. destruct g as [k|name]; cbn in *.
  - destruct (Z.eqb_spec k 0) as [|K]; [eauto|]. destruct H as [?|(j & nm & b & I & ->)]; [contradiction|].
    destruct (existsb _ _) eqn:Q; [eauto|]. rewrite <- not_true_iff_false in Q. exfalso. apply Q.
    apply existsb_exists. exists (j, nm). split; [apply groups_in; eauto|apply Z.eqb_refl].
  - destruct H as (j & b & I). destruct (existsb _ _) eqn:Q; [eauto|]. rewrite <- not_true_iff_false in Q. exfalso. apply Q.
    apply existsb_exists. exists (j, Some name). split; [apply groups_in; eauto|apply String.eqb_refl].
Qed.

(** A number that the pattern has: the parser of the other theorems. *)
Theorem C70_group_number : forall V (E : env char V) pat k n s pos c ins rem,
  has_group (pattern false pat) (ByNumber (Z.of_nat k)) ->
  fast E (S (S n)) (regexp_any pat (ByNumber (Z.of_nat k))) s pos c = fast E (S n) (regexp space digit pat k) s pos c /\
  full E (S (S n)) (regexp_any pat (ByNumber (Z.of_nat k))) s pos c ins rem = full E (S n) (regexp space digit pat k) s pos c ins rem.
Proof.
  intros V E pat k n s pos c ins rem H. apply C70_total_group. intros s' p. unfold re_ask, re_match.
  destruct (re_first space digit (pattern false pat) (skipn p s')) as [[rest cs]|]; [|reflexivity].
  do 2 f_equal. cbn [ask]. destruct k as [|k]; [reflexivity|]. destruct (Z.eqb_spec (Z.of_nat (S k)) 0) as [K|K]; [lia|].
  destruct H as [H|(j & nm & b & I & H)]; [contradiction|].
  destruct (existsb _ _) eqn:Q.
  - rewrite Nat2Z.id. reflexivity.
  - rewrite <- not_true_iff_false in Q. exfalso. apply Q. apply existsb_exists. exists (j, nm). split; [apply groups_in; eauto|].
    apply Z.eqb_eq. exact H.
Qed.

(** A group that the pattern does not have: [IndexError] as soon as the pattern matches
    anywhere where it is tried, and an ordinary failure otherwise. *)
Theorem C70_no_such_group : forall V (E : env char V) pat g n s recover mi get fmt,
  ~ has_group (pattern false pat) g ->
  let found pos := exists e, pos <= e <= List.length s /\ matches space digit (pattern false pat) (firstn (e - pos) (skipn pos s)) in
  (found 0 -> parse E (S (S n)) (regexp_any pat g) s recover mi get fmt = Raise no_such_group) /\
  (recover = true -> (exists pos, pos < List.length s /\ found pos) ->
    parse E (S (S n)) (regexp_any pat g) s recover mi get fmt = Raise no_such_group) /\
  (~ found 0 -> (recover = false \/ forall pos, pos < List.length s -> ~ found pos) ->
    exists r, parse E (S (S n)) (regexp_any pat g) s recover mi get fmt = Ret r /\
      unwrap r false = Raises [ErrorItem (get (Loc 0 0 0) s 0) (fmt (get (Loc 0 0 0) s 0)) [] None]).
Proof.
  intros V E pat g n s recover mi get fmt Hg found.
  assert (P : forall p, p <= List.length s -> probe_group (re_ask (pattern false pat) g) s p = Raise no_such_group /\ found p \/
    probe_group (re_ask (pattern false pat) g) s p = Ret None /\ ~ found p).
  { intros p Hp. unfold probe_group, re_ask, found. pose proof (re_match_none space digit (pattern false pat) 0 s p Hp) as N.
    pose proof (re_match_some space digit (pattern false pat) 0 s p) as M. unfold re_match in *.
    destruct (re_first space digit (pattern false pat) (skipn p s)) as [[rest c]|].
    - left. rewrite ask_raises by exact Hg. split; [reflexivity|]. edestruct M as (B & M' & _); [exact Hp|reflexivity|]. eauto.
    - right. split; [reflexivity|]. intros (e & He & Hm). apply (proj1 N eq_refl e He Hm). }
  assert (L : forall k cur, (k = 0 \/ cur + k <= List.length s) ->
    (exists p, cur <= p < cur + k /\ found p) /\ skip_loop (probe_group (re_ask (pattern false pat) g) s) k cur = Raise no_such_group \/
    (forall p, cur <= p < cur + k -> ~ found p) /\ skip_loop (probe_group (re_ask (pattern false pat) g) s) k cur = Ret None).
  { induction k as [|k IH]; intros cur Hk; cbn [skip_loop]; [right; split; [lia|reflexivity]|].
    destruct (P cur) as [[-> F]|[-> F]]; [lia|left; split; [exists cur; split; [lia|exact F]|reflexivity]|].
    cbn [obind]. destruct (IH (S cur)) as [[(p & Hp & Fp) ->]|[Np ->]]; [lia| |].
    - left. split; [exists p; split; [lia|exact Fp]|reflexivity].
    - right. split; [|reflexivity]. intros p Hp. destruct (Nat.eq_dec p cur) as [->|]; [exact F|apply Np; lia]. }
  unfold parse, regexp_any. destruct (C70_raising_group (re_ask (pattern false pat) g) V E n s 0 (init_ctx get) mi (Some mi)) as [-> ->].
  unfold regexp_group_fast, regexp_group_full. specialize (L (List.length s - 1) 1 ltac:(lia)).
  change (skip_search s 0 (probe_group (re_ask (pattern false pat) g) s)) with (skip_loop (probe_group (re_ask (pattern false pat) g) s) (List.length s - 1) 1).
  destruct (P 0) as [[-> F]|[-> F]]; [lia| |].
  - cbn [obind omap]. split; [destruct recover; reflexivity|]. split; [intros -> _; reflexivity|]. contradiction.
  - split; [contradiction|]. destruct L as [[(p & Hp & Fp) ->]|[N ->]].
    + split; [intros -> _; reflexivity|]. intros _ [->|K]; [|exfalso; apply (K p); [lia|exact Fp]].
      eexists. split; [reflexivity|reflexivity].
    + split; [|intros _ _; destruct recover; eexists; split; reflexivity].
      intros -> (p & Hp & Fp). exfalso. destruct p as [|p]; [exact (F Fp)|]. apply (N (S p)); [lia|exact Fp].
Qed.

(** *** The groups are numbered from 1, without a gap, and named groups can be asked for by
    their numbers *)
Definition numbered (k k' : nat) (r : regex) : Prop :=
  k <= k' /\ (forall j name, In (j, name) (groups r) -> k <= j < k') /\
  (forall j, k <= j < k' -> exists name, In (j, name) (groups r)) /\
  (forall j n1 n2, In (j, n1) (groups r) -> In (j, n2) (groups r) -> n1 = n2).
Lemma numbered_none k r : groups r = [] -> numbered k k r.
Proof. intros H. unfold numbered. rewrite H. cbn. repeat split; try tauto; try lia. Qed.
Lemma numbered_same k k' r r' : (forall x, In x (groups r') <-> In x (groups r)) -> numbered k k' r -> numbered k k' r'.
Proof.
  intros H (K1 & K2 & K3 & K4). split; [exact K1|]. split; [intros j nm I; apply H in I; eauto|]. split.
  - intros j Hj. destruct (K3 j Hj) as [nm I]. exists nm. apply H. exact I.
  - intros j n1 n2 I1 I2. apply H in I1, I2. eauto.
Qed.
Lemma numbered_two k k1 k2 r1 r2 r : groups r = groups r1 ++ groups r2 ->
  numbered k k1 r1 -> numbered k1 k2 r2 -> numbered k k2 r.
Proof.
  intros E (A1 & A2 & A3 & A4) (B1 & B2 & B3 & B4). unfold numbered. rewrite E. split; [lia|]. split; [|split].
  - intros j nm I. apply in_app_iff in I as [I|I]; [apply A2 in I|apply B2 in I]; lia.
  - intros j Hj. destruct (Nat.lt_ge_cases j k1) as [L|L].
    + destruct (A3 j) as [nm I]; [lia|]. exists nm. apply in_app_iff. auto.
    + destruct (B3 j) as [nm I]; [lia|]. exists nm. apply in_app_iff. auto.
  - intros j n1 n2 I1 I2. apply in_app_iff in I1, I2. destruct I1 as [I1|I1], I2 as [I2|I2]; eauto.
    + apply A2 in I1. apply B2 in I2. lia.
    + apply B2 in I1. apply A2 in I2. lia.
Qed.
Lemma copies_groups n r : n <> 0 -> forall x, In x (groups (copies n r)) <-> In x (groups r).
Proof.
  intros Hn x. induction n as [|[|n] IH]; [contradiction|reflexivity|].
  change (copies (S (S n)) r) with (RCat r (copies (S n) r)). cbn [groups]. rewrite in_app_iff, IH by discriminate. tauto.
Qed.
Lemma repeated_groups a w q : repeated a w q -> forall x, In x (groups q) <-> In x (groups a).
Proof.
  intros H x. inversion H; subst; cbn [groups]; rewrite ?in_app_iff; try (cbn; tauto).
  apply copies_groups. lia.
Qed.
Lemma text_numbered v :
  (forall k w r k', choice v k w r k' -> numbered k k' r) /\
  (forall k w r k', sequence v k w r k' -> numbered k k' r) /\
  (forall k w r k', atom v k w r k' -> numbered k k' r).
Proof.
  apply text_mut; intros; auto; try (apply numbered_none; reflexivity).
  - eapply numbered_two; [|eassumption|eassumption]. reflexivity.
  - eapply (numbered_two _ _ _ q r); [|eapply numbered_same; [eapply repeated_groups; eassumption|eassumption]|eassumption].
    destruct r; cbn; rewrite ?app_nil_r; reflexivity.
  - destruct H0 as (K1 & K2 & K3 & K4). unfold numbered. cbn [groups]. split; [lia|]. split; [|split].
    + intros j nm [I|I]; [injection I as <- <-; lia|apply K2 in I; lia].
    + intros j Hj. destruct (Nat.eq_dec j k) as [->|]; [eexists; left; reflexivity|].
      destruct (K3 j) as [nm I]; [lia|]. exists nm. right. exact I.
    + intros j n1 n2 [I1|I1] [I2|I2]; try (injection I1 as <- <-); try (injection I2; intros; subst); eauto;
        try (apply K2 in I1; lia); try (apply K2 in I2; lia).
  - destruct H1 as (K1 & K2 & K3 & K4). unfold numbered. cbn [groups]. split; [lia|]. split; [|split].
    + intros j nm [I|I]; [injection I as <- <-; lia|apply K2 in I; lia].
    + intros j Hj. destruct (Nat.eq_dec j k) as [->|]; [eexists; left; reflexivity|].
      destruct (K3 j) as [nm I]; [lia|]. exists nm. right. exact I.
    + intros j n1 n2 [I1|I1] [I2|I2]; try (injection I1 as <- <-); try (injection I2; intros; subst); eauto;
        try (apply K2 in I1; lia); try (apply K2 in I2; lia).
Qed.

(** The groups that a pattern has are those with the numbers up to the number of its groups. *)
Theorem C70_group_numbers : forall verbose pat r, compile verbose pat = Some r ->
  exists n, forall k, has_group r (ByNumber k) <-> (0 <= k <= Z.of_nat n)%Z.
Proof.
  intros v pat r H. apply compile_iff in H as [[k' H] _]. apply text_numbered in H as (K1 & K2 & K3 & _).
  exists (k' - 1). intros k. cbn [has_group]. split.
  - intros [->|(j & nm & b & I & ->)]; [lia|]. assert (Q : In (j, nm) (groups r)) by (apply groups_in; eauto). apply K2 in Q. lia.
  - intros Hk. destruct (Z.eq_dec k 0) as [|N]; [auto|right]. destruct (K3 (Z.to_nat k)) as [nm I]; [lia|].
    apply groups_in in I as [b I]. exists (Z.to_nat k), nm, b. split; [exact I|lia].
Qed.

Lemma named_of j name c :
  (forall k nm x, In (k, nm, x) c -> (k = j <-> nm = Some name)) -> group_named name c = group_of j c.
Proof.
  induction c as [|[[k nm] x] c IH]; intros H; [reflexivity|]. cbn [group_named group_of].
  assert (Q := H k nm x (or_introl eq_refl)). assert (IH' : group_named name c = group_of j c) by (apply IH; intros; eapply H; right; eassumption).
  destruct nm as [nm|].
  - destruct (String.eqb_spec name nm) as [<-|N].
    + destruct (Nat.eqb_spec j k) as [_|K]; [reflexivity|]. exfalso. apply K. symmetry. apply Q. reflexivity.
    + destruct (Nat.eqb_spec j k) as [<-|K]; [|exact IH']. exfalso. apply N. symmetry. assert (Some nm = Some name) by (apply Q; reflexivity). congruence.
  - destruct (Nat.eqb_spec j k) as [<-|K]; [|exact IH']. exfalso. assert (None = Some name) by (apply Q; reflexivity). discriminate.
Qed.

(** A group can be asked for by its name or by its number. *)
Theorem C70_group_name : forall V (E : env char V) pat r j name body n s pos c ins rem,
  compile false pat = Some r -> group_in j (Some name) body r ->
  fast E (S (S n)) (regexp_any pat (ByName name)) s pos c = fast E (S n) (regexp space digit pat j) s pos c /\
  full E (S (S n)) (regexp_any pat (ByName name)) s pos c ins rem = full E (S n) (regexp space digit pat j) s pos c ins rem.
Proof.
  intros V E pat r j name body n s pos c ins rem H Hg. pose proof H as Hc. apply compile_iff in H as [[k' H] Hn].
  apply text_numbered in H as (K1 & K2 & K3 & K4).
  assert (Ij : In (j, Some name) (groups r)) by (apply groups_in; eauto).
  apply C70_total_group. intros s' p. unfold re_ask, re_match, pattern. rewrite Hc. unfold re_first.
  destruct (ways space digit r (skipn p s') []) as [|[rest cs] l] eqn:Q; [reflexivity|].
  do 2 f_equal. cbn [ask].
  assert (X : existsb (fun j => match snd j with Some name' => String.eqb name name' | None => false end) (groups r) = true).
  { apply existsb_exists. exists (j, Some name). split; [exact Ij|apply String.eqb_refl]. }
  rewrite X. apply f_equal. apply K2 in Ij as Lj. destruct j as [|j]; [lia|]. cbn [group]. apply named_of.
  intros k nm x I. assert (W : In (rest, cs) (ways space digit r (skipn p s') [])) by (rewrite Q; left; reflexivity).
  apply ways_caps in W as (new & -> & C). rewrite app_nil_r in I. destruct (C _ _ _ I) as (b & _ & _ & G & _).
  assert (Ik : In (k, nm) (groups r)) by (apply groups_in; eauto). split.
  - intros ->. eapply K4; eassumption.
  - intros ->. eapply Hn; econstructor; eassumption.
Qed.

(** A group of the pattern never raises. *)
Theorem C70_group_safe : forall V (E : env char V) pat g n s recover mi get fmt,
  has_group (pattern false pat) g ->
  exists r, parse E (S (S n)) (regexp_any pat g) s recover mi get fmt = Ret r.
Proof.
  intros V E pat g n s recover mi get fmt Hg.
  assert (P : forall p, exists f, probe_group (re_ask (pattern false pat) g) s p = Ret f).
  { intros p. unfold probe_group, re_ask. destruct (re_first space digit (pattern false pat) (skipn p s)) as [[rest c]|]; [|eauto].
    destruct (ask_returns (pattern false pat) g (skipn p s) rest c Hg) as [v ->]. cbn [obind]. eauto. }
  assert (L : forall k cur, exists f, skip_loop (probe_group (re_ask (pattern false pat) g) s) k cur = Ret f).
  { induction k as [|k IH]; intros cur; cbn [skip_loop]; [eauto|]. destruct (P cur) as [[x|] ->]; cbn [obind]; eauto. }
  unfold parse, regexp_any. destruct (C70_raising_group (re_ask (pattern false pat) g) V E n s 0 (init_ctx get) mi (Some mi)) as [-> ->].
  unfold regexp_group_fast, regexp_group_full. destruct (P 0) as [[[e v]|] ->]; cbn [obind omap].
  - destruct recover; eexists; reflexivity.
  - cbn zeta. unfold skip_search. destruct (L (List.length s - 1) 1) as [f ->]. cbn [obind].
    destruct recover; [|eexists; reflexivity]. destruct f as [[cur [e v]]|]; eexists; reflexivity.
Qed.
End Patterns.
Print Assumptions C70_group_number.
Print Assumptions C70_group_numbers.
Print Assumptions C70_group_name.
Print Assumptions C70_group_safe.
Print Assumptions C70_no_such_group.

(** ** Cases *)
Local Open Scope string_scope.
Definition grp_pat : string := "(a)(?P<x>b)?".
Definition no_class (c : char) : bool := false.
Definition ask_pat (g : group_ref) (s : string) (recover : bool) : out (presult char (list char)) :=
  parse ex_E 5 (regexp_any no_class no_class grp_pat g) (ex_str s) recover 5 scannerless_get_loc linecol_fmt.
Theorem C70_case_groups :
  (exists r, compile false grp_pat = Some r /\ has_group r (ByNumber 2) /\ ~ has_group r (ByNumber 3) /\
    has_group r (ByName "x") /\ ~ has_group r (ByName "y")) /\
  (* regexp("(a)(?P<x>b)?", 2).parse("ab"), "x", 3, "y", -1; no match; a group that took no part *)
  (exists r, ask_pat (ByNumber 2) "ab" false = Ret r /\ unwrap r false = Returns (ex_str "b")) /\
  (exists r, ask_pat (ByName "x") "ab" false = Ret r /\ unwrap r false = Returns (ex_str "b")) /\
  ask_pat (ByNumber 3) "ab" false = Raise no_such_group /\
  ask_pat (ByName "y") "ab" false = Raise no_such_group /\
  ask_pat (ByNumber (-1)) "ab" false = Raise no_such_group /\
  (exists r e, ask_pat (ByNumber 3) "ca" false = Ret r /\ unwrap r false = Raises [e]) /\
  ask_pat (ByNumber 3) "ca" true = Raise no_such_group /\
  (exists r e, ask_pat (ByName "x") "ac" false = Ret r /\ unwrap r false = Raises [e]).
Proof.
  split.
  { eexists. split; [vm_compute; reflexivity|]. repeat split.
    - right. exists 2, (Some "x"). eexists. split; [apply gi_cat2, gi_alt1, gi_here|reflexivity].
    - intros [H|(j & nm & b & I & H)]; [discriminate|].
      assert (Q : In (j, nm) (groups (RCat (RGroup 1 None (lit 97%N)) (RAlt (RGroup 2 (Some "x") (lit 98%N)) REps)))) by (apply groups_in; eauto).
      cbn in Q. destruct Q as [Q|[Q|[]]]; injection Q as <- _; discriminate.
    - exists 2. eexists. apply gi_cat2, gi_alt1, gi_here.
    - intros (j & b & I).
      assert (Q : In (j, Some "y") (groups (RCat (RGroup 1 None (lit 97%N)) (RAlt (RGroup 2 (Some "x") (lit 98%N)) REps)))) by (apply groups_in; eauto).
      cbn in Q. destruct Q as [Q|[Q|[]]]; discriminate Q. }
  repeat split; try (vm_compute; reflexivity);
    try (eexists; split; vm_compute; reflexivity); try (do 2 eexists; split; vm_compute; reflexivity).
Qed.
Print Assumptions C70_case_groups.
