(** How many insertions completing a JSON text takes *)
From Verif Require Import Json JsonSpec JsonProofs JsonLL LL LangInv PatchSpec PropsPatch DiagProofs PropsDiag PropsRecovery PropsTotal PropsFirst FirstSpec PropsLL Examples.

Section P.
Context {F : Type}.
Variable unescape : list char -> list char.
Variable int_of : list char -> Z.
Variable float_of : list char -> F.
Notation E := (json_E unescape int_of float_of).
Notation value := (jvalue (F := F)).
Notation scal := (jscalar unescape int_of float_of).
Notation member := (jmember unescape (F := F)).

Definition json_need (n : nat) : need := Need 1 (n + 2).
Definition json_claim (d n : nat) (l : level) (k : need) : Prop :=
  (l = Firm \/ l = Soft) /\ need_le (json_need n) k.
Notation fl := (fills E json_claim).
Ltac need := unfold need_le, need_seq, json_need; cbn [now later]; lia.

Lemma afree A (p : gram token json_V A) : gall (fun B q => ~ is_attempt B q) p -> attempt_free E p.
Proof. intros H. apply everywhere_gall; [intros d; solve_gall|exact H]. Qed.
Lemma punct_eats a : eats E (punct (F := F) (String a "")).
Proof. intros v. apply punct_not_empty. Qed.
Lemma tok_not_empty k v : ~ lang E _ (token_p k) [] v.
Proof. intros H. apply lang_inv in H. apply lang_inv in H as [H _]. discriminate. Qed.
Lemma key_eats x l : eats E (seql (GRecoverWith (jstring unescape) x l) (punct (F := F) ":")).
Proof.
  intros v H. apply lang_inv in H as (w1 & w2 & v1 & v2 & Hw & _ & H & H'). apply app_nil_inv in Hw as [-> ->].
  eapply punct_not_empty; eauto.
Qed.
Lemma member_eats : eats E member.
Proof.
  intros v H. apply lang_inv in H as (w1 & w2 & v1 & v2 & Hw & _ & H & _). apply app_nil_inv in Hw as [-> ->].
  eapply key_eats; eauto.
Qed.
Lemma value_eats : eats E value.
Proof.
  intros v H. assert (S : sentence E value [] v) by exact H. apply value_start in S as (t & w & S & _). discriminate.
Qed.

Lemma punct_fills n l a : l <> Marked -> fl n l (Need 1 0) (punct (String a "")).
Proof. intros H. cbn. right. split; auto. Qed.
Lemma key_fills x y n l : fl n l (Need 1 0) (GRecoverWith (jstring unescape) x y).
Proof. split; [exists (Need 0 0); split; [cbn; lia|left; reflexivity]|right; cbn; lia]. Qed.
Lemma scal_fills n : fl n Soft (Need 0 0) scal.
Proof.
  assert (A : forall p q : gram token json_V (json F), fl n Soft (Need 0 0) p -> fl n Soft (Need 0 0) q -> attempt_free E q ->
    fl n Soft (Need 0 0) (GAlt p q)).
  { intros p q H1 H2 H3. cbn [fills]. exists (Need 0 0), (Need 0 0). split; [need|]. split; [need|]. left. auto. }
  unfold jscalar. repeat apply A; try (left; reflexivity); apply afree; solve_gall.
Qed.
Lemma member_firm n : fl n Firm (Need 3 (n + 2)) member.
Proof.
  unfold jmember, seq, seql. cbn [fills].
  exists (Need 2 1), (json_need n). split; [need|]. split; [|split; [auto|need]].
  exists (Need 1 0), (Need 1 0). split; [need|]. split; [apply (key_fills (ascii_chars "a") "")|apply punct_fills; discriminate].
Qed.
Lemma member_soft n : fl n Soft (Need 2 (n + 2)) member.
Proof.
  unfold jmember, seq, seql. cbn [fills].
  destruct n as [|n].
  - exists (Need 1 1), (Need 0 0). split; [need|]. split; [|split; [discriminate|left; apply key_eats]].
    exists (Need 0 0), (Need 0 0). split; [need|]. split; [cbn; split; [exists (Need 0 0); auto|auto]|].
    split; [discriminate|]. left. intros v H. apply lang_inv in H as [H|[H _]]; [|discriminate].
    apply lang_inv in H as (t & H & _). eapply tok_not_empty; eauto.
  - exists (Need 1 1), (json_need n). split; [need|]. split; [|split; [intros n' Hn; injection Hn as <-; split; [auto|need]|left; apply key_eats]].
    exists (Need 0 0), (Need 1 0). split; [need|]. split; [cbn; split; [exists (Need 0 0); auto|auto]|].
    split; [intros n' _; apply punct_fills; discriminate|]. left. intros v H. apply lang_inv in H as [H|[H _]]; [|discriminate].
    apply lang_inv in H as (t & H & _). eapply tok_not_empty; eauto.
Qed.
(** sep_by needs nothing at its start *)
Lemma sepby_fills A (p : gram token json_V A) n l :
  (forall n, fl n Soft (Need 2 (n + 2)) p) -> (forall n, fl n Firm (Need 3 (n + 2)) p) -> eats E p ->
  fl n l (Need 0 (n + 2)) (sep_by p (punct ",")).
Proof.
  intros Hs Hf He. unfold sep_by, seq, seqr. cbn [fills].
  exists (Need 2 (n + 2)). split; [need|].
  assert (M : forall m n k, n <= m -> m + 2 <= later k -> 3 <= later k -> fl n Firm k (GMany (GSeq (punct ",") p (fun _ r => r)))).
  { intros m n0 k Hm H2 H3. cbn [fills]. exists (Need 3 (later k)). split; [need|]. destruct n0 as [|n0].
    - exists (Need 0 0), (Need 0 0). split; [need|]. split; [left; auto|]. split; [discriminate|]. left. apply punct_eats.
    - exists (Need 0 0), (Need 3 (n0 + 2)). split; [need|]. split; [left; auto|]. split; [intros n' H; injection H as <-; apply Hf|].
      left. apply punct_eats. }
  destruct n as [|n].
  - exists (Need 2 2), (Need 0 0). split; [need|]. split; [apply (Hs 0)|]. split; [discriminate|left; exact He].
  - exists (Need 2 (S n + 2)), (Need 0 (S n + 2)). split; [need|]. split; [apply (Hs (S n))|].
    split; [intros n' H; injection H as <-|left; exact He]. apply M with (m := S n); cbn; lia.
Qed.
Lemma between_fills A B (p : gram token json_V A) (f : A -> out B) n a b :
  (forall n, fl n Firm (Need 0 (n + 2)) p) -> 
  fl n Soft (Need 1 (n + 2)) (between (punct (String a "")) (punct (String b "")) (GFmap p f)).
Proof.
  intros H. unfold between, seql, seqr. cbn [fills]. destruct n as [|n].
  - exists (Need 0 0), (Need 0 0). split; [need|]. split; [left; auto|]. split; [discriminate|left; apply punct_eats].
  - exists (Need 0 0), (Need 1 (n + 3)). split; [need|]. split; [left; auto|]. split; [|left; apply punct_eats].
    intros n' Hn. injection Hn as <-. exists (Need 0 (n + 2)), (Need 1 0). split; [need|].
    split; [apply H|apply punct_fills; discriminate].
Qed.
Lemma value_fills d n l k : json_claim d n l k -> fl n l k (E d).
Proof.
  intros [Hl Hk].
  assert (D : fl n Soft (Need 1 (n + 2)) (GRecover (jdict unescape))).
  { unfold jdict. cbn [fills]. apply between_fills. intros n0.
    apply sepby_fills; [apply member_soft|apply member_firm|apply member_eats]. }
  assert (L : fl n Soft (Need 1 (n + 2)) (GRecover jlist)).
  { unfold jlist. cbn [fills]. apply between_fills. intros n0.
    apply sepby_fills; [intros n1; split; [auto|need]|intros n1; split; [auto|need]|apply value_eats]. }
  assert (W : forall l, fl n l (json_need n) (GRecoverWith scal (JInt 1) "1")).
  { intros l'. cbn [fills]. split; [exists (Need 0 0); split; [need|apply scal_fills]|right; need]. }
  unfold json_E. cbn [fills]. exists (json_need n), (Need 1 (n + 2)).
  split; [exact Hk|]. split; [exact Hk|]. destruct Hl as [-> | ->].
  - right. right. right. right. left. split; [discriminate|]. split; [|exact L].
    exists (json_need n), (Need 1 (n + 2)). split; [need|]. split; [need|]. right. right. right. right. left.
    split; [discriminate|]. split; [apply W|exact D].
  - left. split; [auto|]. split; [|split; [exact L|apply afree; solve_gall]].
    exists (json_need n), (Need 1 (n + 2)). split; [need|]. split; [need|]. left. split; [auto|].
    split; [apply W|]. split; [exact D|apply afree; solve_gall].
Qed.
Lemma json_completes n : completes E n (json_need n) (json_parser (F := F)).
Proof.
  exists json_claim. split; [intros d m l k; apply value_fills|].
  unfold json_parser, seql. cbn [fills]. exists (json_need n), (Need 0 0). split; [need|]. split; [split; [auto|need]|exact I].
Qed.
End P.
