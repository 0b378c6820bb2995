(** Property C48, with placeholders: what [recover_with] inserts can be written
    down as well. *)
From Verif Require Import LL LangInv DiagProofs PropsDiag PropsRecovery PropsTotal PropsFirst FirstSpec PropsLL Examples.

Section Fill.
Context {T : Type} {V : nat -> Type}.
Notation gram := (gram T V).
Variable E : env T V.
(** [fill l]: the tokens to write for the placeholder reported as [l] *)
Variable fill : string -> list T.
Definition filled (w : list (T + string)) : list T :=
  flat_map (fun x => match x with inl t => [t] | inr l => fill l end) w.
(** What [recover_with] inserts is the value of a text of the parser, and
    [fill] gives the text. *)
Definition fill_node B (q : gram B) : Prop :=
  match q with
  | GRecoverWith p x l => sentence E p (fill l) x
  | GRecoverWithFn p fn lab => forall s i x, fn s i = Ret x -> sentence E p (fill (lab x)) x
  | _ => True
  end.

Lemma filled_app a b : filled (a ++ b) = filled a ++ filled b.
Proof. apply flat_map_app. Qed.
Lemma filled_inl w : filled (map inl w) = w.
Proof. induction w as [|x w IH]; [reflexivity|]. cbn in *. f_equal. exact IH. Qed.
Lemma lang_filled A (g : gram A) w v : lang E A g w v -> everywhere E fill_node g ->
  sentence E g (filled w) v.
Proof.
  unfold sentence.
  intros H. induction H; intros HF; rewrite ?filled_app, ?map_app, ?filled_inl; cbn [filled flat_map app map];
    try (econstructor; eauto; fail);
    try (econstructor; eauto; apply IHlang; intros B' q' Ho; apply HF; constructor; exact Ho);
    try (econstructor; eauto; [apply IHlang1|apply IHlang2]; intros B' q' Ho; apply HF;
         first [apply oc_seq_l; exact Ho|apply oc_seq_r; exact Ho|apply oc_bind_l; exact Ho|
                eapply oc_bind_r; exact Ho|apply oc_many; exact Ho|exact Ho]).
  - apply la_many_cons; [apply IHlang1|apply IHlang2; exact HF]. intros B' q' Ho. apply HF, oc_many, Ho.
  - rewrite app_nil_r. apply la_with. apply (HF _ _ (oc_refl _ _)).
  - rewrite app_nil_r. apply la_withfn. eapply (HF _ _ (oc_refl _ _)); eauto.
Qed.
End Fill.

Theorem C48_filled_repair_accepted :
  forall T V (E : env T V) (fill : string -> list T) n A (g : gram T V A) s mi get fmt locof r v errs,
  wf_env E -> wf g -> cohere get s locof -> lay_ok E g s locof ->
  everywhere E (completable_node E) g -> LL1 E g -> everywhere E (quiet_node E) g -> guarded E g ->
  everywhere E (fill_node E fill) g ->
  parse E n (seql g GEof) s true mi get fmt = Ret r ->
  unwrap r true = Returns v -> unwrap r false = Raises errs ->
  exists es, edits_in es = s /\ Forall2 (reports locof fmt) errs (edits_ops 0 es) /\
    edits_from E (seql g GEof) es /\ sentence E g (filled fill (edits_out es)) v /\
    forall rec mi' fmt', (0 <= mi')%Z ->
    exists n' r', parse E n' (seql g GEof) (filled fill (edits_out es)) rec mi' default_get_loc fmt' = Ret r' /\
      unwrap r' false = Returns v.
Proof.
  intros T V E fill n A g s mi get fmt locof r v errs HE Hg Hco Hl Hc HL Hq Hgd HF H Hv He.
  pose proof (parse_eof_ends _ _ _ _ _ _ _ _ _ _ H) as Hend.
  destruct (unwrap_repair _ _ _ _ _ _ _ _ _ _ _ H Hv He) as (rc & rep & Hr & Hin & -> & ->).
  rewrite Hr in Hend. simpl in Hend. specialize (Hend _ Hin).
  destruct (repair_script_loc _ _ _ _ _ _ _ _ _ _ _ _ HE (wf_eof _ _ Hg) Hco (lay_eof _ _ _ _ _ Hl) H Hr Hin)
    as (es & H1 & H2 & H3 & H4 & H5 & H6 & H7).
  assert (S : sentence E g (filled fill (edits_out es)) (r_val rep)).
  { apply sent_eof. eapply lang_filled; [eassumption|]. apply ev_eof; auto; exact I. }
  exists es. split; [|split; [auto|split; [auto|split; [exact S|]]]].
  - rewrite H1, Hend. unfold slice. rewrite Nat.sub_0_r. apply firstn_all.
  - intros rec mi' fmt' Hm'.
    destruct (C47_ll1_decides T V E A g (filled fill (edits_out es)) rec mi' default_get_loc fmt' default_locof
      HE Hg (default_cohere _) (or_introl (default_exact _)) Hc HL Hq Hgd Hm') as (n' & r' & K1 & K2).
    exists n', r'. split; auto. apply K2. exact S.
Qed.
Print Assumptions C48_filled_repair_accepted.
