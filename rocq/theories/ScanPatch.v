(** How many insertions completing a JSON text takes when it is parsed from
    characters (tests/parsers/json_scannerless.py) *)
From Verif Require Import Json JsonText JsonTextProofs JsonScan PropsScan JsonPatch LL LangInv PatchSpec PropsPatch DiagProofs PropsDiag PropsRecovery PropsTotal PropsFirst FirstSpec PropsLL Examples.

Section P.
Context {F : Type}.
Variable unescape : list char -> list char.
Variable int_of : list char -> Z.
Variable float_of : list char -> F.
Notation E := (scan_E unescape int_of float_of).
Notation value := (svalue (F := F)).
Notation scal := (sscalar unescape int_of float_of).
Notation member := (smember unescape (F := F)).
Notation fl := (fills E json_claim).
Ltac need := unfold need_le, need_seq, json_need; cbn [now later]; lia.

Lemma scan_afree A (p : gram char json_V A) : gall (fun B q => ~ is_attempt B q) p -> attempt_free E p.
Proof. intros H. apply everywhere_gall; [intros d; solve_gall|exact H]. Qed.
Lemma spunct_eats a : eats E (spunct (F := F) a).
Proof. intros v. apply spunct_not_empty. Qed.
Lemma ows_matches : always_matches re_ows.
Proof. intros s pos _. do 2 eexists. reflexivity. Qed.

(** a token is not empty *)
Lemma re_token_eats f : (forall s n v, f s = Some (n, v) -> 0 < n <= List.length s) ->
  forall v, ~ lang E _ (GRegexp (re_token f)) [] v.
Proof.
  intros Hf v H. apply lang_inv in H as (s & i & e & H & Hn). unfold re_token in H.
  destruct (f (skipn i s)) as [[n x]|] eqn:Q; [|discriminate]. injection H as <- _.
  apply Hf in Q. apply eq_sym, map_eq_nil in Hn.
  apply (f_equal (@List.length char)) in Hn. rewrite firstn_length in Hn. cbn [List.length] in Hn.
  rewrite skipn_length in *. lia.
Qed.
Lemma pat_string_some s n v : pat_string s = Some (n, v) -> 0 < n <= List.length s.
Proof. intros H. split; [|eapply le_string; eauto]. unfold pat_string in H. destruct (string_len s); [injection H as <- _; lia|discriminate]. Qed.
Lemma pat_bool_some s n v : pat_bool s = Some (n, v) -> 0 < n <= List.length s.
Proof.
  intros H. split; [|eapply le_bool; eauto]. unfold pat_bool in H.
  destruct (JsonText.starts _ s); [injection H as <- _; lia|]. destruct (JsonText.starts _ s); [injection H as <- _; lia|discriminate].
Qed.
Lemma pat_null_some s n v : pat_null s = Some (n, v) -> 0 < n <= List.length s.
Proof. intros H. split; [|eapply le_null; eauto]. unfold pat_null in H. destruct (JsonText.starts _ s); [injection H as <- _; lia|discriminate]. Qed.
Lemma pat_number_some s n v : pat_number s = Some (n, v) -> 0 < n <= List.length s.
Proof. unfold pat_number, whole. destruct (float_len s) as [k|] eqn:Q; [|discriminate]. intros [= <- _]. apply float_len_sound in Q as [_ L]. exact L. Qed.
Lemma pat_integer_some s n v : pat_integer s = Some (n, v) -> 0 < n <= List.length s.
Proof. unfold pat_integer, whole. destruct (int_len s) as [k|] eqn:Q; [|discriminate]. intros [= <- _]. apply int_len_sound in Q as (z & _ & L). exact L. Qed.
Lemma sstring_not_empty v : ~ lang E _ (sstring unescape) [] v.
Proof.
  intros H. apply lang_inv in H as (v0 & H & _). apply lang_inv in H. eapply re_token_eats; [|exact H]. apply pat_string_some.
Qed.
Lemma sscalar_not_empty v : ~ lang E _ scal [] v.
Proof.
  assert (K : forall A f x (h : list char -> out A) v, (forall s n v, f s = Some (n, v) -> 0 < n <= List.length s) ->
    ~ lang E _ (GFmap (GLabel (GRegexp (re_token f)) x) h) [] v).
  { intros A f x h v0 Hf H. apply lang_inv in H as (y & H & _). apply lang_inv in H. eapply re_token_eats; eauto. }
  intros H. unfold sscalar in H.
  apply lang_inv in H as [H|H]; [apply lang_inv in H as [H|H]; [apply lang_inv in H as [H|H];
      [apply lang_inv in H as [H|H]|]|]|]; revert H; apply K;
    first [exact pat_number_some|exact pat_integer_some|exact pat_bool_some|exact pat_null_some|exact pat_string_some].
Qed.
Lemma between_eats A (p : gram char json_V A) a b : eats E (between (spunct a) (spunct b) p).
Proof.
  intros v H. apply lang_inv in H as (w1 & w2 & v1 & v2 & Hw & _ & H & _). apply eq_sym, app_eq_nil in Hw as [-> ->].
  eapply spunct_not_empty; exact H.
Qed.
Lemma skey_eats x l : eats E (seql (GRecoverWith (sstring unescape) x l) (spunct (F := F) ":")).
Proof.
  intros v H. apply lang_inv in H as (w1 & w2 & v1 & v2 & Hw & _ & H & H'). apply eq_sym, app_eq_nil in Hw as [-> ->].
  eapply spunct_not_empty; eauto.
Qed.
Lemma smember_eats : eats E member.
Proof.
  intros v H. apply lang_inv in H as (w1 & w2 & v1 & v2 & Hw & _ & H & _). apply eq_sym, app_eq_nil in Hw as [-> ->].
  eapply skey_eats; eauto.
Qed.
Lemma svalue_eats : eats E value.
Proof.
  intros v H. apply lang_inv in H. cbn in H. apply lang_inv in H.
  apply lang_inv in H as [H|H]; [apply lang_inv in H as [H|H]|].
  - apply lang_inv in H as [H|[H _]]; [|discriminate]. eapply sscalar_not_empty; eauto.
  - apply lang_inv in H. apply lang_inv in H. eapply between_eats; exact H.
  - apply lang_inv in H. apply lang_inv in H. eapply between_eats; exact H.
Qed.

Lemma scan_quiet : everywhere E (quiet_node E) (scan_parser (F := F)).
Proof.
  assert (M : forall A (p : gram char json_V A) v, ~ lang E _ (seqr (spunct ",") p) [] v).
  { intros A p v H. apply lang_inv in H as (w1 & w2 & v1 & v2 & Hw & _ & H & _). apply eq_sym, app_eq_nil in Hw as [-> ->].
    eapply spunct_not_empty; eauto. }
  apply everywhere_gall; [intros d|]; solve_gall; intros; try (eexists; reflexivity).
  all: intros H; eapply M; exact H.
Qed.
Lemma scan_guarded : guarded E (scan_parser (F := F)).
Proof. intros d _. constructor. intros d' H. exfalso. eapply scan_no_lcall; eauto. Qed.

(** ** How much is inserted *)
Lemma spunct_fills n l a : l <> Marked -> fl n l (Need 1 0) (spunct a).
Proof.
  intros H. unfold spunct, seql. cbn [fills]. exists (Need 1 0), (Need 0 0). split; [need|].
  assert (L : l = Soft \/ l <> Marked /\ 1 <= now (Need 1 0)) by (right; split; [exact H|cbn; lia]).
  destruct l; [|split; [exact L|]; right; right; exact ows_matches|split; [exact L|]; right; right; exact ows_matches|congruence].
  split; [exact L|]. split; [intros n' _; right; right; exact ows_matches|]. right. exists (Need 0 0). split; [cbn; lia|left; reflexivity].
Qed.
(** nothing is inserted for a character that does not have to be there *)
Lemma spunct_soft n a : fl n Soft (Need 0 0) (spunct a).
Proof.
  unfold spunct, seql. cbn [fills]. exists (Need 0 0), (Need 0 0). split; [need|].
  split; [left; reflexivity|]. split; [intros n' _; right; right; exact ows_matches|]. right. exists (Need 0 0). split; [cbn; lia|left; reflexivity].
Qed.
Lemma skey_fills x y n l : fl n l (Need 1 0) (GRecoverWith (sstring unescape) x y).
Proof. split; [exists (Need 0 0); split; [cbn; lia|left; reflexivity]|right; cbn; lia]. Qed.
Lemma sscal_fills n : fl n Soft (Need 0 0) scal.
Proof.
  assert (A : forall p q : gram char json_V (json F), fl n Soft (Need 0 0) p -> fl n Soft (Need 0 0) q -> attempt_free E q ->
    fl n Soft (Need 0 0) (GAlt p q)).
  { intros p q H1 H2 H3. cbn [fills]. exists (Need 0 0), (Need 0 0). split; [need|]. split; [need|]. left. auto. }
  unfold sscalar. repeat apply A; try (left; reflexivity); apply scan_afree; solve_gall.
Qed.
Lemma smember_firm n : fl n Firm (Need 3 (n + 2)) member.
Proof.
  unfold smember, seq, seql. cbn [fills].
  exists (Need 2 1), (json_need n). split; [need|]. split; [|split; [auto|need]].
  exists (Need 1 0), (Need 1 0). split; [need|]. split; [apply (skey_fills (ascii_chars "a") "")|apply spunct_fills; discriminate].
Qed.
Lemma smember_soft n : fl n Soft (Need 2 (n + 2)) member.
Proof.
  unfold smember, seq, seql. cbn [fills].
  destruct n as [|n].
  - exists (Need 1 1), (Need 0 0). split; [need|]. split; [|split; [discriminate|left; apply skey_eats]].
    exists (Need 0 0), (Need 0 0). split; [need|]. split; [cbn; split; [exists (Need 0 0); auto|auto]|].
    split; [discriminate|]. left. intros v H. apply lang_inv in H as [H|[H _]]; [|discriminate].
    eapply sstring_not_empty; exact H.
  - exists (Need 1 1), (json_need n). split; [need|]. split; [|split; [intros n' Hn; injection Hn as <-; split; [auto|need]|left; apply skey_eats]].
    exists (Need 0 0), (Need 1 0). split; [need|]. split; [cbn; split; [exists (Need 0 0); auto|auto]|].
    split; [intros n' _; apply spunct_fills; discriminate|]. left. intros v H. apply lang_inv in H as [H|[H _]]; [|discriminate].
    eapply sstring_not_empty; exact H.
Qed.
(** sep_by needs nothing at its start *)
Lemma ssepby_fills A (p : gram char json_V A) n l :
  (forall n, fl n Soft (Need 2 (n + 2)) p) -> (forall n, fl n Firm (Need 3 (n + 2)) p) -> eats E p ->
  fl n l (Need 0 (n + 2)) (sep_by p (spunct ",")).
Proof.
  intros Hs Hf He. unfold sep_by, seq, seqr. cbn [fills].
  exists (Need 2 (n + 2)). split; [need|].
  assert (M : forall m n k, n <= m -> m + 2 <= later k -> 3 <= later k -> fl n Firm k (GMany (GSeq (spunct ",") p (fun _ r => r)))).
  { intros m n0 k Hm H2 H3. cbn [fills]. exists (Need 3 (later k)). split; [need|]. destruct n0 as [|n0].
    - exists (Need 0 0), (Need 0 0). split; [need|]. split; [apply spunct_soft|]. split; [discriminate|]. left. apply spunct_eats.
    - exists (Need 0 0), (Need 3 (n0 + 2)). split; [need|]. split; [apply spunct_soft|]. split; [intros n' H; injection H as <-; apply Hf|].
      left. apply spunct_eats. }
  destruct n as [|n].
  - exists (Need 2 2), (Need 0 0). split; [need|]. split; [apply (Hs 0)|]. split; [discriminate|left; exact He].
  - exists (Need 2 (S n + 2)), (Need 0 (S n + 2)). split; [need|]. split; [apply (Hs (S n))|].
    split; [intros n' H; injection H as <-|left; exact He]. apply M with (m := S n); cbn; lia.
Qed.
Lemma sbetween_fills A B (p : gram char json_V A) (f : A -> out B) n a b :
  (forall n, fl n Firm (Need 0 (n + 2)) p) -> 
  fl n Soft (Need 1 (n + 2)) (between (spunct a) (spunct b) (GFmap p f)).
Proof.
  intros H. unfold between, seql, seqr. cbn [fills]. destruct n as [|n].
  - exists (Need 0 0), (Need 0 0). split; [need|]. split; [apply spunct_soft|]. split; [discriminate|left; apply spunct_eats].
  - exists (Need 0 0), (Need 1 (n + 3)). split; [need|]. split; [apply spunct_soft|]. split; [|left; apply spunct_eats].
    intros n' Hn. injection Hn as <-. exists (Need 0 (n + 2)), (Need 1 0). split; [need|].
    split; [apply H|apply spunct_fills; discriminate].
Qed.
Lemma svalue_fills d n l k : json_claim d n l k -> fl n l k (E d).
Proof.
  intros [Hl Hk].
  assert (D : fl n Soft (Need 1 (n + 2)) (GRecover (sdict unescape))).
  { unfold sdict. cbn [fills]. apply sbetween_fills. intros n0.
    apply ssepby_fills; [apply smember_soft|apply smember_firm|apply smember_eats]. }
  assert (L : fl n Soft (Need 1 (n + 2)) (GRecover slist)).
  { unfold slist. cbn [fills]. apply sbetween_fills. intros n0.
    apply ssepby_fills; [intros n1; split; [auto|need]|intros n1; split; [auto|need]|apply svalue_eats]. }
  assert (W : forall l, fl n l (json_need n) (GRecoverWith scal (JInt 1) "1")).
  { intros l'. cbn [fills]. split; [exists (Need 0 0); split; [need|apply sscal_fills]|right; need]. }
  unfold scan_E. cbn [fills]. exists (json_need n), (Need 1 (n + 2)).
  split; [exact Hk|]. split; [exact Hk|]. destruct Hl as [-> | ->].
  - right. right. right. right. left. split; [discriminate|]. split; [|exact L].
    exists (json_need n), (Need 1 (n + 2)). split; [need|]. split; [need|]. right. right. right. right. left.
    split; [discriminate|]. split; [apply W|exact D].
  - left. split; [auto|]. split; [|split; [exact L|apply scan_afree; solve_gall]].
    exists (json_need n), (Need 1 (n + 2)). split; [need|]. split; [need|]. left. split; [auto|].
    split; [apply W|]. split; [exact D|apply scan_afree; solve_gall].
Qed.
Lemma scan_completes n : completes E n (json_need n) (scan_parser (F := F)).
Proof.
  exists json_claim. split; [intros d m l k; apply svalue_fills|].
  unfold scan_parser, seql, seqr. cbn [fills]. exists (json_need n), (Need 0 0). split; [need|]. split; [|exact I].
  exists (Need 0 0), (json_need n). split; [need|]. split; [right; right; exact ows_matches|split; [auto|need]].
Qed.
(** Recovery turns any characters whatever into a JSON value, when
    [max_insertions] exceeds their number by two. The
    default of five is enough for texts of up to three characters. *)
Theorem C66_always_recovers : forall src mi, (Z.of_nat (List.length src) + 2 <= mi)%Z ->
  exists n r v, parse E n (scan_parser (F := F)) src true mi scannerless_get_loc linecol_fmt = Ret r /\ unwrap r true = Returns v.
Proof.
  intros src mi Hm. eapply C51_total with (k := json_need (List.length src)).
  - apply scan_wf_E.
  - apply scan_wf.
  - apply scan_quiet.
  - apply scan_guarded.
  - lia.
  - apply scan_completes.
  - right. unfold json_need. cbn [now later]. lia.
Qed.
End P.
Print Assumptions C66_always_recovers.
(** An object without its end and a list that goes on after a comma, with the
    default [max_insertions=5]: three brackets are inserted. *)
Definition broken_text : list char := ascii_chars "{""b"":[1,],""c""".
Theorem C66_case_recovers : forall F (float_of : list char -> F), exists r e,
  parse (scan_E json_unescape json_int float_of) 80 (scan_parser (F := F)) broken_text true 5 scannerless_get_loc linecol_fmt = Ret r /\
  unwrap r true = Returns (JDict [(ascii_chars "b", JList [JInt 1%Z; JList []; JStr (ascii_chars "c")])]) /\
  unwrap r false = Raises e /\
  map (fun x => ei_op x) e = [Some (Insert "'['"%string); Some (Insert "']'"%string); Some (Insert "'}'"%string)].
Proof. intros F float_of. do 2 eexists. split; [vm_compute; reflexivity|]. vm_compute. repeat split; reflexivity. Qed.
(** Some bound is needed: six open lists and the default of five. *)
Theorem C66_needs_budget : forall F (float_of : list char -> F), exists r e,
  parse (scan_E json_unescape json_int float_of) 80 (scan_parser (F := F)) (ascii_chars "[[[[[[") true 5 scannerless_get_loc linecol_fmt = Ret r /\
  unwrap r true = Raises e.
Proof. intros F float_of. do 2 eexists. split; [vm_compute; reflexivity|]. vm_compute. reflexivity. Qed.
