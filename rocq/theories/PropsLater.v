(** C83: what every error says, also the errors after the first one. *)
From Verif Require Export Later PropsRec PropsFirst PropsLL PropsExp PropsTotal Examples Locations.
From Verif Require Import Json JsonProofs JsonLL PropsJson.

(** ** C83  Every error of a repaired input - not only the first one - is located where
    its operation is performed, and expects only what may come there, in the text as
    mended up to this place.  If the input is not repaired, the same holds of the only
    error. *)
Theorem C83_every_error :
  forall T V (E : env T V) n A (g : gram T V A) s mi get fmt locof r errs,
  wf_env E -> wf g -> cohere get s locof -> lay_ok E g s locof ->
  everywhere E (mendable_node E) g -> attempt_free E g ->
  parse E n g s true mi get fmt = Ret r -> unwrap r false = Raises errs ->
  (exists es j v, j <= List.length s /\ edits_in es = firstn j s /\ edits_from E g es /\
     lang E A g (edits_out es) v /\ unwrap r true = Returns v /\
     accounts E g locof 0 [] es errs) \/
  (exists e p, errs = [e] /\ unwrap r true = Raises [e] /\ ei_op e = None /\
     ei_loc e = locof p /\ p <= List.length s /\
     forall l, In l (ei_expected e) -> may_come E g (map inl (firstn p s)) l).
Proof.
  intros T V E n A g s mi get fmt locof r errs HE Hg Hco Hl Hc Ha H Hu.
  pose proof (proj1 (parse_rec_iff _ _ _ _ _ _ _ _ _) H) as [HF Hfmt].
  pose proof (rec_iff E g s get locof HE Hg Hco Hl 0 (init_ctx get) mi (Some mi) ltac:(lia)
    (pos_init _ _)) as HR. cbn [ctx_mark init_ctx] in HR.
  assert (HS : RecSpec.rsem E s locof A g 0 0 mi (Some mi) (rab (pr_result r))).
  { apply HR. exists n. rewrite HF. reflexivity. }
  pose proof (rsem_apt E HE s locof A g 0 0 mi (Some mi) _ HS Hg ltac:(lia) Hc Ha) as K.
  pose proof (proj1 (unwrap_verdict r false _) eq_refl) as V1. rewrite Hu in V1.
  pose proof (proj1 (unwrap_verdict r true _) eq_refl) as V2.
  assert (FL : forall b l X e, located E s locof g 0 b l X -> e = a_failure (pr_fmt r) l X ->
    exists p, ei_op e = None /\ ei_loc e = locof p /\ p <= List.length s /\
      forall l, In l (ei_expected e) -> may_come E g (map inl (firstn p s)) l).
  { intros b l X e (p & -> & P1 & _ & P2) ->. exists p. split; [auto|]. split; [auto|]. split; [lia|].
    cbn [ei_expected a_failure]. unfold slice in P2. rewrite Nat.sub_0_r in P2. exact P2. }
  destruct (rab (pr_result r)) as [v j X|b l X|nr b l X rs|e] eqn:ER.
  - discriminate.
  - right. injection V1 as ->. cbn [verdict] in V2.
    destruct (FL _ _ _ _ K eq_refl) as (p & P1 & P2 & P3 & P4). do 2 eexists. eauto 10.
  - destruct K as (K1 & _ & K2). cbn [verdict] in V1, V2. destruct V1 as [[-> V1]|(x & C1 & V1)].
    + right. injection V1 as ->.
      destruct V2 as [[_ V2]|(x & (l1 & l2 & C & _) & _)]; [|destruct l1; discriminate].
      destruct (FL _ _ _ _ K1 eq_refl) as (p & P1 & P2 & P3 & P4). do 2 eexists. eauto 10.
    + left. injection V1 as ->. assert (Hin : In x rs).
      { destruct C1 as (l1 & l2 & -> & _). apply in_or_app. right. left. auto. }
      destruct V2 as [[-> _]|(y & C2 & V2)]; [destruct Hin|].
      rewrite <- (chosen_unique _ _ _ C1 C2) in V2.
      destruct (K2 x Hin) as [(es & N1 & N2 & N3 & N4 & N5 & _) _].
      exists es, (f_pos x), (f_val x). split; [lia|].
      split; [unfold slice in N1; rewrite Nat.sub_0_r in N1; exact N1|]. split; [auto|]. split; [auto|]. split; [auto|].
      clear - N5. revert N5. generalize (@nil (T + string)), 0, (f_ops x).
      induction es as [|e es IH]; intros w i ops H.
      * cbn in *. subst. reflexivity.
      * destruct e as [t|ts|lb u]; cbn [told accounts] in *.
        -- apply IH. exact H.
        -- destruct H as (o & ops' & -> & H1 & (H2 & H3 & _) & H4). do 2 eexists. split; [reflexivity|].
           cbn [a_report ei_op ei_loc ei_expected]. split; [congruence|]. split; [auto|]. split; [auto|]. apply IH. exact H4.
        -- destruct H as (o & ops' & -> & H1 & (H2 & H3 & _) & H4). do 2 eexists. split; [reflexivity|].
           cbn [a_report ei_op ei_loc ei_expected]. split; [congruence|]. split; [auto|]. split; [auto|]. apply IH. exact H4.
  - destruct V1.
Qed.
Print Assumptions C83_every_error.

(** How to meet the hypothesis: a grammar whose parts all have sentences, whose callbacks
    return a value and that does not use [bind] *)
Definition bind_free_node {T V} B (q : gram T V B) : Prop :=
  match q with GBind _ _ => False | _ => True end.

Lemma mendable_of : forall T V (E : env T V) A (g : gram T V A),
  everywhere E (completable_node E) g -> everywhere E (quiet_node E) g ->
  everywhere E bind_free_node g -> everywhere E (mendable_node E) g.
Proof.
  intros T V E A g Hc Hq Hb B q Ho. specialize (Hc B q Ho). specialize (Hq B q Ho). specialize (Hb B q Ho).
  destruct q; cbn in *; auto; try tauto.
  destruct Hc as (w & v & H). exists (map inl w), v. exact H.
Qed.

(** without placeholders, [may_come] is what C52 says of the first error *)
Lemma with_free_word : forall T V (E : env T V) A (g : gram T V A) w v,
  lang E A g w v -> with_free E g -> exists t, w = map inl t.
Proof.
  intros T V E A g w v H. induction H; intros W;
    try (exists []; reflexivity); try (eexists [_]; reflexivity); try (eexists; reflexivity).
  - apply IHlang. eapply ev_fmap; eauto.
  - apply IHlang. eapply ev_alt_l; eauto.
  - apply IHlang. eapply ev_alt_r; eauto.
  - destruct IHlang1 as [a ->]; [eapply ev_bind_l; eauto|].
    destruct IHlang2 as [b ->]; [eapply ev_bind_r; eauto|].
    exists (a ++ b). rewrite map_app. reflexivity.
  - destruct IHlang1 as [a ->]; [eapply ev_seq_l; eauto|].
    destruct IHlang2 as [b ->]; [eapply ev_seq_r; eauto|].
    exists (a ++ b). rewrite map_app. reflexivity.
  - apply IHlang. eapply ev_maybe; eauto.
  - destruct IHlang1 as [a ->]; [eapply ev_many; eauto|].
    destruct IHlang2 as [b ->]; [auto|].
    exists (a ++ b). rewrite map_app. reflexivity.
  - apply IHlang. eapply ev_attempt; eauto.
  - apply IHlang. eapply ev_label; eauto.
  - apply IHlang. eapply ev_recover; eauto.
  - destruct (W _ _ (oc_refl _ _)). exact I.
  - destruct (W _ _ (oc_refl _ _)). exact I.
  - destruct (W _ _ (oc_refl _ _)). exact I.
  - destruct (W _ _ (oc_refl _ _)). exact I.
  - apply IHlang. eapply ev_block; eauto.
  - apply IHlang. eapply ev_aligned; eauto.
  - apply IHlang. eapply ev_indented; eauto.
  - apply IHlang. eapply ev_delay; eauto.
Qed.

Lemma map_inl_inj : forall (A B : Type) (a b : list A), map (@inl A B) a = map inl b -> a = b.
Proof.
  induction a as [|x a IH]; intros [|y b] H; try discriminate; auto. cbn in H. injection H as -> H. f_equal. auto.
Qed.

Theorem C83_first_error : forall T V (E : env T V) A (g : gram T V A) w l,
  with_free E g -> may_come E g (map inl w) l -> rightly E g w l.
Proof.
  intros T V E A g w l Hw (B & q & Ho & Hcl & H). exists B, q. split; [auto|]. split; [auto|].
  intros u v Hs. destruct (H (map inl u) v Hs) as (w' & v' & K).
  destruct (with_free_word _ _ _ _ _ _ _ K Hw) as [t Ht].
  assert (exists t', w' = map inl t') as [t' ->].
  { clear - Ht. revert t Ht. induction w as [|x w IH]; intros [|y t] H; cbn in H; try discriminate.
    - destruct u; [|discriminate]. exists []. exact H.
    - revert y t H. induction u as [|x u IH]; intros y t H; cbn in H.
      + exists (y :: t). exact H.
      + injection H as _ H. destruct t; [destruct u; [|discriminate]; exists []; exact H|]. eauto.
    - injection H as _ H. eauto. }
  exists t', v'. unfold sentence. rewrite !map_app, <- app_assoc. exact K.
Qed.
Print Assumptions C83_first_error.

(** ** The expression grammar of [Examples.v] *)
Lemma ex_mendable : everywhere ex_E (mendable_node ex_E) ex_top.
Proof.
  apply mendable_of; [apply completable_eof, ex_completable|apply ex_quiet|].
  apply everywhere_gall; [intros d|]; solve_gall.
Qed.

Theorem C83_expressions :
  forall n s mi fmt r errs,
  parse ex_E n ex_top s true mi scannerless_get_loc fmt = Ret r -> unwrap r false = Raises errs ->
  (exists es j v, j <= List.length s /\ edits_in es = firstn j s /\ edits_from ex_E ex_top es /\
     lang ex_E _ ex_top (edits_out es) v /\ unwrap r true = Returns v /\
     accounts ex_E ex_top (true_loc s) 0 [] es errs) \/
  (exists e p, errs = [e] /\ unwrap r true = Raises [e] /\ ei_op e = None /\
     ei_loc e = true_loc s p /\ p <= List.length s /\
     forall l, In l (ei_expected e) -> may_come ex_E ex_top (map inl (firstn p s)) l).
Proof.
  intros n s mi fmt r errs H Hu.
  exact (C83_every_error _ _ ex_E n _ ex_top s mi _ fmt _ r errs ex_wf_E ex_wf (scannerless_cohere s)
    (or_introl (scannerless_exact s)) ex_mendable ex_attempt_free H Hu).
Qed.

(** "((1+": three errors; the later ones speak of the text mended by the earlier ones: after the
    placeholder, another term or the bracket is expected, and then once more *)
Example C83_instance : exists r e1 e2 e3, ex_parse "((1+" true 5 = Ret r /\
  unwrap r false = Raises [e1; e2; e3] /\ unwrap r true = Returns 1%Z /\
  ei_op e1 = Some (Insert "value") /\ ei_expected e1 = ["digit"; "'('"]%string /\
  ei_op e2 = Some (Insert "')'") /\ ei_expected e2 = ["'+'"; "')'"]%string /\
  ei_op e3 = Some (Insert "')'") /\ ei_expected e3 = ["'+'"; "')'"]%string /\
  loc_pos (ei_loc e3) = 4%Z.
Proof. do 4 eexists. repeat (split; [vm_compute; reflexivity|]). vm_compute. reflexivity. Qed.

(** ** The JSON parser of the test-suite *)
Section J.
Context {F : Type}.
Variable unescape : list char -> list char.
Variable int_of : list char -> Z.
Variable float_of : list char -> F.
Notation E := (json_E unescape int_of float_of).
Notation top := (json_parser (F := F)).

Lemma json_mendable : everywhere E (mendable_node E) top.
Proof.
  apply mendable_of; [apply completable_eof, json_completable|apply ev_eof; [exact I|exact I|apply json_quiet]|].
  apply everywhere_gall; [intros d|]; solve_gall.
Qed.

Theorem C83_json :
  forall toks mi n fmt r errs,
  parse E n top toks true mi lexer_get_loc fmt = Ret r -> unwrap r false = Raises errs ->
  (exists es j v, j <= List.length toks /\ edits_in es = firstn j toks /\ edits_from E top es /\
     lang E _ top (edits_out es) v /\ unwrap r true = Returns v /\
     accounts E top (loc_from_stream toks) 0 [] es errs) \/
  (exists e p, errs = [e] /\ unwrap r true = Raises [e] /\ ei_op e = None /\
     ei_loc e = loc_from_stream toks p /\ p <= List.length toks /\
     forall l, In l (ei_expected e) -> may_come E top (map inl (firstn p toks)) l).
Proof.
  intros toks mi n fmt r errs H Hu.
  refine (C83_every_error _ _ E n _ top toks mi _ fmt _ r errs (json_wf_E _ _ _) (wf_eof _ _ (json_wf (F := F)))
    (lexer_cohere toks) (lay_eof _ _ _ _ _ (json_lay _ _ _ _)) json_mendable _ H Hu).
  apply everywhere_gall; [intros d|]; solve_gall.
Qed.
End J.
Print Assumptions C83_expressions.
Print Assumptions C83_json.
