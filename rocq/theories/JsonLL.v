(** The grammar of json.py meets the conditions of the general theorems *)
From Verif Require Import Json JsonSpec JsonProofs LL LangInv PatchSpec CostSpec CostProofs PropsCost DiagProofs PropsDiag PropsRecovery PropsTotal PropsFirst FirstSpec PropsLL PropsFill Examples.

Section P.
Context {F : Type}.
Variable unescape : list char -> list char.
Variable int_of : list char -> Z.
Variable float_of : list char -> F.
Notation E := (json_E unescape int_of float_of).
Notation value := (jvalue (F := F)).
Notation scal := (jscalar unescape int_of float_of).
Notation member := (jmember unescape (F := F)).
Notation sent := (sentence E).
Notation dict := (jdict unescape (F := F)).
Notation lst := (jlist (F := F)).

Lemma json_wf_E : wf_env E.
Proof. intros d. solve_gall. Qed.
Lemma json_wf : wf value.
Proof. solve_gall. Qed.
Lemma json_no_layout : no_layout value.
Proof. solve_gall. Qed.
Lemma json_no_layout_E : forall d, no_layout (E d).
Proof. intros d. solve_gall. Qed.
Lemma json_lay s : lay_ok E value s (loc_from_stream s).
Proof. right. split; [apply json_no_layout|apply json_no_layout_E]. Qed.

(** what a text starts with *)
Definition starts_value (t : token) : Prop :=
  is_kind "integer" t \/ is_kind "float" t \/ is_kind "bool" t \/ is_kind "null" t \/ is_kind "string" t \/
  is_punct "{" t \/ is_punct "[" t.
Lemma scalar_start w v : sent scal w v -> exists t, w = [t] /\
  (is_kind "integer" t \/ is_kind "float" t \/ is_kind "bool" t \/ is_kind "null" t \/ is_kind "string" t).
Proof. intros H. apply scalar_sent in H as (t & -> & H). exists t. split; auto. destruct H; tauto. Qed.
Lemma dict_start w v : sent dict w v -> exists t w', w = t :: w' /\ is_punct "{" t.
Proof. intros H. apply sent_inv in H. apply between_inv in H as (t & w' & x & t' & -> & H & _). eauto. Qed.
Lemma list_start w v : sent lst w v -> exists t w', w = t :: w' /\ is_punct "[" t.
Proof. intros H. apply sent_inv in H. apply between_inv in H as (t & w' & x & t' & -> & H & _). eauto. Qed.
Lemma value_start w v : sent value w v -> exists t w', w = t :: w' /\ starts_value t.
Proof.
  intros H. apply sent_inv in H. apply sent_inv in H. unfold starts_value.
  apply sent_inv in H as [H|H]; [apply sent_inv in H as [H|H]|]; apply sent_inv in H.
  - apply scalar_start in H as (t & -> & H). exists t, []. split; auto. tauto.
  - apply dict_start in H as (t & w' & -> & H). exists t, w'. split; auto. tauto.
  - apply list_start in H as (t & w' & -> & H). exists t, w'. split; auto. tauto.
Qed.
Lemma member_start w v : sent member w v -> exists t w', w = t :: w' /\ is_kind "string" t.
Proof. destruct v as [k v]. intros H. apply member_inv in H as (t & c & w' & -> & H & _). eauto. Qed.
Lemma item_start A (p : gram token json_V A) w v : sent (seqr (punct ",") p) w v -> exists t w', w = t :: w' /\ is_punct "," t.
Proof.
  intros H. apply sent_inv in H as (w1 & w2 & v1 & v2 & -> & _ & H & _). apply punct_sent in H as [-> H]. cbn. eauto.
Qed.

(** a text exists *)
Definition tok (k : string) : token := Token k [] loc0 loc0.
Definition ptok (a : ascii) : token := Token "punct" [N_of_ascii a] loc0 loc0.
Lemma punct_tok a : sent (punct (String a "")) [ptok a] (ptok a).
Proof. apply sent_punct. split; reflexivity. Qed.
Lemma value_tok : sent value [tok "null"] JNull.
Proof. apply json_sentence. apply json_scalar. apply is_null. reflexivity. Qed.
Lemma member_tok : sent member [tok "string"; ptok ":"; tok "null"] (unescape [], JNull).
Proof. apply (sent_member unescape int_of float_of (tok "string") (ptok ":")); [reflexivity|split; reflexivity|apply value_tok]. Qed.

Ltac returning := intros; eexists; reflexivity.
Lemma member_completable : gall (completable_node E) member.
Proof.
  unfold jmember, seq, seql, jvalue. split; [|split; [split; [|split]|]].
  - exists [tok "null"], JNull. apply value_tok.
  - exists [ptok ":"], (ptok ":"). apply punct_tok.
  - split; [exact I|]. split; [returning|]. solve_gall.
  - solve_gall.
  - solve_gall.
Qed.
Lemma sepby_completable A (p : gram token json_V A) : (exists w v, sent p w v) ->
  gall (completable_node E) p -> gall (completable_node E) (sep_by p (punct ",")).
Proof.
  intros He Hp. unfold sep_by, seq, seqr. split; [returning|]. split; [exact I|]. split; [exists [], []; constructor|].
  split; [exact Hp|]. split; [exact I|]. split; [exact He|]. split; [solve_gall|exact Hp].
Qed.
Lemma between_completable A B (p : gram token json_V A) (f : A -> B) a b : (exists w v, sent p w v) ->
  gall (completable_node E) p ->
  gall (completable_node E) (between (punct (String a "")) (punct (String b "")) (GFmap p (fun x => Ret (f x)))).
Proof.
  intros (w & v & He) Hp. unfold between, seql, seqr.
  split; [exists (w ++ [ptok b]), (f v)|].
  - apply (se_seq E _ _ _ (GFmap p (fun x => Ret (f x))) (punct (String b "")) (fun l _ => l) w [ptok b] (f v) (ptok b));
      [|apply punct_tok]. eapply la_fmap; [exact He|reflexivity].
  - split; [solve_gall|]. split; [exists [ptok b], (ptok b); apply punct_tok|]. split; [|solve_gall].
    split; [returning|exact Hp].
Qed.
Lemma json_completable : everywhere E (completable_node E) value.
Proof.
  apply everywhere_gall; [intros d|solve_gall]. unfold json_E.
  split; [exact I|]. split; [exact I|]. split; [split; [exact I|split]|].
  - split; [exact I|]. unfold jscalar. split; [exact I|]. split; [split; [exact I|split; [split; [exact I|split; [split; [exact I|split]|]]|]]|];
      (split; [returning|solve_gall]).
  - split; [exact I|]. split; [exact I|]. apply between_completable; [exists [], []; apply sent_sepby_nil|].
    apply sepby_completable; [do 2 eexists; apply member_tok|apply member_completable].
  - split; [exact I|]. split; [exact I|]. apply between_completable; [exists [], []; apply sent_sepby_nil|].
    apply sepby_completable; [do 2 eexists; apply value_tok|solve_gall].
Qed.

(** ** LL(1) *)
Definition json_follow (d : nat) (o : option token) : Prop :=
  o = None \/ exists t, o = Some t /\ (is_punct "," t \/ is_punct "}" t \/ is_punct "]" t).

Lemma kind_punct k a t : is_kind k t -> is_punct a t -> k = "punct"%string.
Proof. unfold is_kind. intros H [H' _]. congruence. Qed.
Lemma punct_punct a b t : is_punct a t -> is_punct b t -> a = b.
Proof.
  intros [_ H1] [_ H2]. rewrite H1 in H2. injection H2 as H2.
  rewrite <- (ascii_N_embedding a), H2. apply ascii_N_embedding.
Qed.
Lemma kind_kind k k' t : is_kind k t -> is_kind k' t -> k = k'.
Proof. unfold is_kind. congruence. Qed.
Ltac clash :=
  match goal with
  | H : is_kind _ ?t, H' : is_punct _ ?t |- _ => discriminate (kind_punct _ _ _ H H')
  | H : is_punct _ ?t, H' : is_punct _ ?t |- _ => discriminate (punct_punct _ _ _ H H')
  | H : is_kind _ ?t, H' : is_kind _ ?t |- _ => discriminate (kind_kind _ _ _ H H')
  end.

Lemma tok_ll1 fo k K : ll1 E fo (token_p k) K. Proof. exact I. Qed.
Lemma fmap_tok_start A k (f : token -> out A) w v : sent (GFmap (token_p k) f) w v -> exists t, w = [t] /\ is_kind k t.
Proof. intros H. apply sent_inv in H as (t & H & _). apply token_sent in H as [-> H]. eauto. Qed.
(** first tokens are known: an alternative is decided *)
Lemma decided A (p q : gram token json_V A) (P Q : token -> Prop) K :
  (forall w v, sent p w v -> exists t w', w = t :: w' /\ P t) ->
  (forall w v, sent q w v -> exists t w', w = t :: w' /\ Q t) ->
  (forall t, P t -> Q t -> False) ->
  ~ nullable E p /\ disjoint (first_is E p) (starts E q K).
Proof.
  intros Hp Hq HD. split.
  - intros [v H]. apply Hp in H as (t & w' & H & _). discriminate.
  - intros o H1 [H2|[[v Hn] _]]; [|apply Hq in Hn as (t & w' & Hn & _); discriminate].
    destruct o as [t|]; [|exact H1]. destruct H1 as (w1 & v1 & H1), H2 as (w2 & v2 & H2).
    apply Hp in H1 as (t1 & w1' & H1 & HP). apply Hq in H2 as (t2 & w2' & H2 & HQ).
    injection H1 as <- _. injection H2 as <- _. eapply HD; eauto.
Qed.
Section Follow.
(** for every way of telling what may follow a value that allows at least [json_follow] *)
Variable fo : nat -> option token -> Prop.
Hypothesis Hfo : forall d o, json_follow d o -> fo d o.
Lemma sep_ll1 A (p : gram token json_V A) (P : token -> Prop) (K : option token -> Prop) :
  (forall w v, sent p w v -> exists t w', w = t :: w' /\ P t) ->
  (forall K' : option token -> Prop, (forall o, K' o -> K o \/ exists t, o = Some t /\ is_punct "," t) -> ll1 E fo p K') ->
  (forall o, K o -> exists t, o = Some t /\ ~ P t /\ ~ is_punct "," t) ->
  (forall t, P t -> ~ is_punct "," t) ->
  ll1 E fo (sep_by p (punct ",")) K.
Proof.
  intros Hp HL HK Hc. unfold sep_by, seq, seqr. cbn [ll1]. split; [|split].
  - split; [|split; [|split]].
    + apply HL. intros o [Ho|[_ Ho]]; [|auto]. right. destruct o as [t|]; [|destruct Ho].
      destruct Ho as (w & v & Ho). apply sent_inv in Ho as [[Ho _]|(w1 & w2 & v1 & l & Hw & _ & Ho & _)]; [discriminate|].
      apply item_start in Ho as (t' & w' & -> & Ho). injection Hw as -> _. eauto.
    + split; [exact I|]. apply HL. intros o [Ho|Ho]; [|auto]. right. destruct o as [t|]; [|destruct Ho].
      destruct Ho as (w & v & Ho). apply item_start in Ho as (t' & w' & Hw & Ho). injection Hw as -> _. eauto.
    + intros [v H]. apply item_start in H as (t & w & H & _). discriminate.
    + intros o H1 H2. apply HK in H2 as (t & -> & _ & H2). destruct H1 as (w & v & H1).
      apply item_start in H1 as (t' & w' & H1 & H3). injection H1 as <- _. auto.
  - intros [v H]. apply sent_inv in H as (w1 & w2 & v1 & v2 & Hw & _ & H & _). apply Hp in H as (t & w & -> & _). discriminate.
  - intros o H1 H2. apply HK in H2 as (t & -> & H2 & _). destruct H1 as (w & v & H1).
    apply sent_inv in H1 as (w1 & w2 & v1 & v2 & Hw & _ & H1 & _). apply Hp in H1 as (t' & w' & -> & H1).
    injection Hw as <- _. auto.
Qed.
Lemma punct_starts a K o : starts E (punct (String a "")) K o -> exists t, o = Some t /\ is_punct a t.
Proof.
  intros [H|[[v H] _]]; [|apply punct_sent in H as [H _]; discriminate].
  destruct o as [t|]; [|destruct H]. destruct H as (w & v & H). apply punct_sent in H as [H1 H2].
  injection H1 as -> _. eauto.
Qed.
Lemma member_ll1 (K : option token -> Prop) : (forall o, K o -> fo 0 o) -> ll1 E fo member K.
Proof. intros H. cbn. auto. Qed.
Lemma value_ll1 (K : option token -> Prop) : (forall o, K o -> fo 0 o) -> ll1 E fo value K.
Proof. intros H. exact H. Qed.
Lemma scal_ll1 K : ll1 E fo scal K.
Proof.
  assert (D : forall A (p q : gram token json_V A) (P Q : token -> Prop), ll1 E fo p K -> ll1 E fo q K ->
    (forall w v, sent p w v -> exists t w', w = t :: w' /\ P t) ->
    (forall w v, sent q w v -> exists t w', w = t :: w' /\ Q t) ->
    (forall t, P t -> Q t -> False) -> ll1 E fo (GAlt p q) K).
  { intros A p q P Q H1 H2 H3 H4 H5. cbn [ll1]. split; [auto|]. split; [auto|]. eapply decided; eauto. }
  assert (O : forall A k (f : token -> out A) w v, sent (GFmap (token_p k) f) w v -> exists t w', w = t :: w' /\ is_kind k t).
  { intros A k f w v H. apply fmap_tok_start in H as (t & -> & H). eauto. }
  assert (U : forall A (p q : gram token json_V A) (P Q : token -> Prop),
    (forall w v, sent p w v -> exists t w', w = t :: w' /\ P t) ->
    (forall w v, sent q w v -> exists t w', w = t :: w' /\ Q t) ->
    forall w v, sent (GAlt p q) w v -> exists t w', w = t :: w' /\ (P t \/ Q t)).
  { intros A p q P Q H1 H2 w v H. apply sent_inv in H as [H|H]; [apply H1 in H|apply H2 in H];
      destruct H as (t & w' & H & H'); eauto. }
  unfold jscalar.
  pose proof (O _ "integer"%string (fun t => Ret (JInt (F := F) (int_of (tk_value t))))) as OI.
  pose proof (O _ "float"%string (fun t => Ret (JFloat (float_of (tk_value t))))) as OF.
  pose proof (O _ "bool"%string (fun t => Ret (JBool (F := F) (chars_eqb (tk_value t) (ascii_chars "true"))))) as OB.
  pose proof (O _ "null"%string (fun t => Ret (JNull (F := F)))) as ON.
  pose proof (O _ "string"%string (fun t => Ret (JStr (F := F) (unescape (tk_value t))))) as OS.
  pose proof (U _ _ _ _ _ OI OF) as U1. pose proof (U _ _ _ _ _ U1 OB) as U2. pose proof (U _ _ _ _ _ U2 ON) as U3.
  eapply D; [eapply D; [eapply D; [eapply D; [exact I|exact I|exact OI|exact OF|]|exact I|exact U1|exact OB|]|exact I|exact U2|exact ON|]|exact I|exact U3|exact OS|];
    cbn beta; intros t; intros; repeat match goal with H : _ \/ _ |- _ => destruct H end; clash.
Qed.
Lemma json_ll1 : forall d, ll1 E fo (E d) (fo d).
Proof.
  intros d. unfold json_E.
  set (K := fo d).
  assert (D : ll1 E fo (GRecover dict) K).
  { unfold jdict, between, seqr, seql. cbn [ll1]. split; [exact I|]. split; [|exact I].
    eapply sep_ll1; [apply member_start| | |intros t H1 H2; clash].
    - intros K' H. apply member_ll1. intros o Ho. apply Hfo. right. apply H in Ho as [Ho|Ho].
      + apply punct_starts in Ho as (t & -> & Ho). eauto.
      + destruct Ho as (t & -> & Ho). eauto.
    - intros o Ho. apply punct_starts in Ho as (t & -> & Ho). exists t. split; [auto|]. split; intros H; clash. }
  assert (L : ll1 E fo (GRecover lst) K).
  { unfold jlist, between, seqr, seql. cbn [ll1]. split; [exact I|]. split; [|exact I].
    eapply sep_ll1; [apply value_start| | |].
    - intros K' H. apply value_ll1. intros o Ho. apply Hfo. right. apply H in Ho as [Ho|Ho].
      + apply punct_starts in Ho as (t & -> & Ho). eauto.
      + destruct Ho as (t & -> & Ho). eauto.
    - intros o Ho. apply punct_starts in Ho as (t & -> & Ho). exists t. split; [auto|].
      split; [intros H; unfold starts_value in H|intros H]; repeat match goal with H : _ \/ _ |- _ => destruct H end; clash.
    - intros t H1 H2. unfold starts_value in H1. repeat match goal with H : _ \/ _ |- _ => destruct H end; clash. }
  cbn [ll1]. split; [split; [apply scal_ll1|split; [exact D|]]|split; [exact L|]].
  - eapply decided with (P := fun t => is_kind "integer" t \/ is_kind "float" t \/ is_kind "bool" t \/ is_kind "null" t \/ is_kind "string" t)
      (Q := is_punct "{").
    + intros w v H. apply sent_inv in H. apply scalar_start in H as (t & -> & H). eauto.
    + intros w v H. apply sent_inv in H. apply dict_start in H. exact H.
    + intros t H1 H2. repeat match goal with H : _ \/ _ |- _ => destruct H end; clash.
  - eapply decided with (P := fun t => (is_kind "integer" t \/ is_kind "float" t \/ is_kind "bool" t \/ is_kind "null" t \/ is_kind "string" t) \/ is_punct "{" t)
      (Q := is_punct "[").
    + intros w v H. apply sent_inv in H as [H|H]; apply sent_inv in H.
      * apply scalar_start in H as (t & -> & H). eauto.
      * apply dict_start in H as (t & w' & -> & H). eauto.
    + intros w v H. apply sent_inv in H. apply list_start in H. exact H.
    + intros t H1 H2. repeat match goal with H : _ \/ _ |- _ => destruct H end; clash.
Qed.
End Follow.
Lemma json_LL1 : LL1 E value.
Proof.
  exists json_follow. split; [intros o ->; left; reflexivity|]. apply json_ll1. auto.
Qed.

(** ** No exceptions, no loops *)
Lemma punct_not_empty a v : ~ lang E _ (punct (String a "")) [] v.
Proof. intros H. apply lang_inv in H as [H _]. discriminate. Qed.
Lemma quiet_many A (p : gram token json_V A) v : ~ lang E _ (seqr (punct ",") p) [] v.
Proof.
  intros H. apply lang_inv in H as (w1 & w2 & v1 & v2 & Hw & _ & H & _). apply app_nil_inv in Hw as [-> ->].
  eapply punct_not_empty; eauto.
Qed.
Lemma json_quiet : everywhere E (quiet_node E) value.
Proof.
  apply everywhere_gall; [intros d|]; solve_gall; intros; try (eexists; reflexivity).
  all: intros H; eapply quiet_many; exact H.
Qed.
Lemma no_lcall d d' : ~ lcall E _ (E d) d'.
Proof.
  assert (K : forall A k (f : token -> out A) d, ~ lcall E _ (GFmap (token_p k) f) d).
  { intros A k f e H. apply lcall_inv in H. apply lcall_inv in H. apply lcall_inv in H. exact H. }
  assert (B : forall A (p : gram token json_V A) a b d, ~ lcall E _ (between (punct (String a "")) (punct (String b "")) p) d).
  { intros A p a b e H. apply lcall_inv in H as [H|[[v H] _]]; [apply lcall_inv in H; exact H|eapply punct_not_empty; eauto]. }
  intros H. apply lcall_inv in H. apply lcall_inv in H as [H|H]; [apply lcall_inv in H as [H|H]|].
  - apply lcall_inv in H. unfold jscalar in H.
    apply lcall_inv in H as [H|H]; [apply lcall_inv in H as [H|H]; [apply lcall_inv in H as [H|H];
      [apply lcall_inv in H as [H|H]|]|]|]; eapply K; exact H.
  - apply lcall_inv in H. apply lcall_inv in H. eapply B; exact H.
  - apply lcall_inv in H. apply lcall_inv in H. eapply B; exact H.
Qed.
Lemma json_guarded : guarded E value.
Proof. intros d _. constructor. intros d' H. exfalso. eapply no_lcall; eauto. Qed.
Lemma json_one_token : everywhere E one_token_node value.
Proof. apply everywhere_gall; [intros d|]; solve_gall. Qed.
Lemma json_layout_free : everywhere E (fun B q => ~ is_layout B q) value.
Proof. apply everywhere_gall; [intros d|]; solve_gall. Qed.
Lemma json_no_attempt : no_attempt (json_parser (F := F)) /\ forall d, no_attempt (E d).
Proof. split; [|intros d]; solve_gall. Qed.

(** ** Size and depth *)
Lemma json_size : bounded_size E (json_parser (F := F)).
Proof.
  destruct (size_exists (json_parser (F := F))) as [a Ha]; [solve_gall|].
  destruct (size_exists (E 0)) as [b Hb]; [solve_gall|].
  exists (a + b). split; [eapply size_mono; [|exact Ha]; lia|]. intros d. eapply size_mono; [|exact Hb]. lia.
Qed.
Lemma json_depth : bounded_depth E (json_parser (F := F)).
Proof.
  exists 1. assert (L : forall d, left_depth E 0 (E d)) by (intros d d' H; exact (no_lcall d d' H)).
  split; [intros d _; apply L|]. intros d. apply left_mono, L.
Qed.

(** ** recover_with is applied to token parsers *)
Lemma json_single_withs : single_withs E value.
Proof.
  apply everywhere_gall; [intros d|]; solve_gall; intros H; repeat (apply bare_inv in H; cbn in H); exact H.
Qed.
Lemma json_fill fill i a : fill "1"%string = [i] -> fill "'""a""'"%string = [a] ->
  is_kind "integer" i -> int_of (tk_value i) = 1%Z ->
  is_kind "string" a -> unescape (tk_value a) = ascii_chars "a" ->
  everywhere E (fill_node E fill) value.
Proof.
  intros F1 F2 H1 H2 H3 H4. apply everywhere_gall; [intros d|]; solve_gall.
  - rewrite F1. apply (sent_scalar unescape int_of float_of). rewrite <- H2. apply is_int. exact H1.
  - rewrite F2. change (sent (jstring unescape) [a] (ascii_chars "a")).
    eapply la_fmap; [apply (sent_token unescape int_of float_of "string"%string a H3)|rewrite H4; reflexivity].
  - rewrite F2. change (sent (jstring unescape) [a] (ascii_chars "a")).
    eapply la_fmap; [apply (sent_token unescape int_of float_of "string"%string a H3)|rewrite H4; reflexivity].
Qed.
End P.
