(** Properties C28 - C30 and C40 of properties.jsonl. *)
From Verif Require Import LexProofs Examples.

(** ** C28  The lexer tiles the source and locates tokens correctly *)
Theorem C28_lexer_tiles :
  forall spec src, lex_wf spec src -> forall toks,
  (exists n, split_tokens n src spec = Ret (LexOk toks)) <->
  (exists l, lex_run spec src 0 l (List.length src) /\
     List.concat (map (fun '(a, b, _) => slice src a b) l) = src /\
     toks = flat_map (piece_token src) l).
Proof.
  intros spec src Hwf toks. unfold split_tokens. rewrite <- (true_loc_0 src). split.
  - intros [n H]. apply (lex_loop_ok spec src Hwf) in H as (l & q & Hr & -> & ->); [|lia].
    exists l. split; auto. split; auto.
    rewrite (lex_run_tiles spec src Hwf _ _ _ Hr) by lia.
    unfold slice. rewrite Nat.sub_0_r. apply firstn_all.
  - intros (l & Hr & _ & ->).
    destruct (lex_loop_complete spec src Hwf _ _ _ Hr []) as [H _]; [lia|]. apply H. reflexivity.
Qed.
Print Assumptions C28_lexer_tiles.

(** ** C29  LexError points at the first unmatched position *)
Theorem C29_lex_error :
  forall spec src, lex_wf spec src -> forall lo,
  (exists n, split_tokens n src spec = Ret (LexErr lo)) <->
  (exists l q, lex_run spec src 0 l q /\ q < List.length src /\ spec src q = None /\
     lo = true_loc src q).
Proof.
  intros spec src Hwf lo. unfold split_tokens. rewrite <- (true_loc_0 src). split.
  - intros [n H]. apply (lex_loop_ok spec src Hwf) in H as (l & q & Hr & H); [|lia]. eauto.
  - intros (l & q & Hr & Hq & Hn & ->).
    destruct (lex_loop_complete spec src Hwf _ _ _ Hr []) as [_ H]; [lia|]. auto.
Qed.
Print Assumptions C29_lex_error.

Theorem C29_lex_error_str : forall src q,
  lex_error_str (true_loc src q) =
  ("Lexing error at " ++ str_of_Z (Z.of_nat (true_line src q) + 1) ++ ":" ++
   str_of_Z (Z.of_nat (true_col src q) + 1))%string.
Proof. reflexivity. Qed.
Print Assumptions C29_lex_error_str.

(** ** C30  The lexer terminates iff the spec makes progress *)
Theorem C30_lexer_terminates_iff :
  forall spec src, lex_wf spec src ->
  (exists n r, split_tokens n src spec = Ret r) <->
  (forall l q g, lex_run spec src 0 l q -> q < List.length src -> spec src q <> Some (q, g)).
Proof.
  intros spec src Hwf. unfold split_tokens. split.
  - intros (n & r & H) l q g Hr Hq Hs.
    rewrite (lex_loop_diverges spec src _ _ _ g Hr) in H; auto. discriminate.
  - intros Hno. exists (S (List.length src)).
    assert (H : lex_loop spec src (S (List.length src)) 0 (Loc 0 0 0) [] <> NoFuel)
      by (apply (lex_loop_terminates spec src Hwf); auto; lia).
    assert (He : forall n p lo acc e, lex_loop spec src n p lo acc <> Raise e).
    { clear. induction n as [|n IH]; cbn [lex_loop]; intros p lo acc e; [discriminate|].
      destruct (Nat.ltb p _); [|discriminate]. destruct (spec src p) as [[e' g]|]; [|discriminate].
      apply IH. }
    specialize (He (S (List.length src)) 0 (Loc 0 0 0) []).
    destruct (lex_loop _ _ _ _ _ _) as [r|e|]; [eauto|destruct (He e eq_refl)|contradiction].
Qed.
Print Assumptions C30_lexer_terminates_iff.

Theorem C30_progress_terminates :
  forall spec src, lex_wf spec src ->
  (forall p e g, p < List.length src -> spec src p = Some (e, g) -> e <> p) ->
  exists r, split_tokens (S (List.length src)) src spec = Ret r.
Proof.
  intros spec src Hwf Hp.
  assert (H : exists n r, split_tokens n src spec = Ret r).
  { apply C30_lexer_terminates_iff; auto. intros l q g Hr Hq Hs. exact (Hp _ _ _ Hq Hs eq_refl). }
  assert (Hn : split_tokens (S (List.length src)) src spec <> NoFuel).
  { apply (lex_loop_terminates spec src Hwf); auto; try lia.
    intros l q g Hr Hq Hs. exact (Hp _ _ _ Hq Hs eq_refl). }
  unfold split_tokens in *.
  assert (He : forall n p lo acc e, lex_loop spec src n p lo acc <> Raise e).
  { clear. induction n as [|n IH]; cbn [lex_loop]; intros p lo acc e; [discriminate|].
    destruct (Nat.ltb p _); [|discriminate]. destruct (spec src p) as [[e' g]|]; [|discriminate].
    apply IH. }
  specialize (He (S (List.length src)) 0 (Loc 0 0 0) []).
  destruct (lex_loop _ _ _ _ _ _) as [r|e|]; [eauto|destruct (He e eq_refl)|contradiction].
Qed.
Print Assumptions C30_progress_terminates.

(** A concrete lexer: digits, spaces and newlines (unnamed), anything else
    unmatched. *)
Fixpoint lx_run (f : char -> bool) (l : list char) : nat :=
  match l with [] => 0 | x :: l' => if f x then S (lx_run f l') else 0 end.
Definition lx_dig (x : char) : bool := N.leb 48 x && N.leb x 57.
Definition lx_sp (x : char) : bool := N.eqb x 32 || N.eqb x 10.
Definition lx_spec : lexspec := fun src p =>
  let l := skipn p src in
  match lx_run lx_dig l with
  | S k => Some (p + S k, Some ("num"%string, firstn (S k) l))
  | O => match lx_run lx_sp l with
         | S k => Some (p + S k, None)
         | O => None
         end
  end.
Lemma lx_wf src : lex_wf lx_spec src.
Proof.
  assert (Hr : forall f l, lx_run f l <= List.length l).
  { intros f l. induction l as [|x l IH]; simpl; auto. destruct (f x); lia. }
  intros p e g Hp H. unfold lx_spec in H. cbv zeta in H.
  pose proof (Hr lx_dig (skipn p src)) as H1. pose proof (Hr lx_sp (skipn p src)) as H2.
  rewrite skipn_length in H1, H2.
  destruct (lx_run lx_dig (skipn p src)).
  - destruct (lx_run lx_sp (skipn p src)); [discriminate|]. injection H as <- _. lia.
  - injection H as <- _. lia.
Qed.
Example C28_case :
  split_tokens 9 (ex_str ("12 " ++ lay_nltxt ++ "  3")) lx_spec =
  Ret (LexOk [Token "num" (ex_str "12") (Loc 0 0 0) (Loc 2 0 2);
              Token "num" (ex_str "3") (Loc 6 1 2) (Loc 7 1 3)]).
Proof. vm_compute. reflexivity. Qed.
Example C29_case :
  split_tokens 9 (ex_str ("12" ++ lay_nltxt ++ " x")) lx_spec = Ret (LexErr (Loc 4 1 1)).
Proof. vm_compute. reflexivity. Qed.
(** a specification such as [(?P<num>\d* )] matches the empty string *)
Example C30_case : forall n, split_tokens n (ex_str "x") (fun _ p => Some (p, None)) = NoFuel.
Proof.
  intros n. unfold split_tokens.
  apply (lex_loop_diverges _ _ 0 [] 0 None); [constructor|simpl; lia|reflexivity].
Qed.

(** ** C40  lexer.parse reports token locations *)
Theorem C40_token_locations :
  forall V (E : env token V) n A (g : gram token V A) s rec r rec' errs,
  wf_env E -> wf g -> no_layout g -> (forall d, no_layout (E d)) ->
  lexer_parse E n g s rec = Ret r -> unwrap r rec' = Raises errs ->
  forall e, In e errs -> exists p, p <= List.length s /\ token_loc s p (ei_loc e) /\
    ei_loc_str e = (str_of_Z (loc_line (ei_loc e) + 1) ++ ":" ++
                    str_of_Z (loc_col (ei_loc e) + 1))%string.
Proof.
  intros V E n A g s rec r rec' errs HE Hg L1 L2 H Hu e Hin.
  destruct (error_locs E n A g s rec 5 lexer_get_loc linecol_fmt r errs
    (loc_from_stream s) rec' HE Hg (lexer_cohere s) (or_intror (conj L1 L2)) H Hu e Hin)
    as (p & Hp & H1 & H2).
  exists p. split; auto. rewrite H1, H2. split; [apply loc_from_stream_spec; auto|reflexivity].
Qed.
Print Assumptions C40_token_locations.

(** after recovery: the positions are those of the operations *)
Theorem C40_token_locations_of_repairs :
  forall V (E : env token V) n A (g : gram token V A) s r v errs,
  wf_env E -> wf g -> no_layout g -> (forall d, no_layout (E d)) ->
  lexer_parse E n g s true = Ret r ->
  unwrap r true = Returns v -> unwrap r false = Raises errs ->
  exists es j,
    edits_in es = slice s 0 j /\ j <= List.length s /\
    Forall2 (fun e o => ei_op e = Some (fst o) /\ token_loc s (snd o) (ei_loc e))
      errs (edits_ops 0 es) /\
    lang E A g (edits_out es) v /\ edits_from E g es.
Proof.
  intros V E n A g s r v errs HE Hg L1 L2 H Hv He.
  destruct (unwrap_repair _ _ _ _ _ _ _ _ _ _ _ H Hv He) as (rc & rep & Hr & Hin & -> & ->).
  destruct (repair_script_loc E n A g s 5 lexer_get_loc linecol_fmt r rc rep
    (loc_from_stream s) HE Hg (lexer_cohere s) (or_intror (conj L1 L2)) H Hr Hin)
    as (es & H1 & H2 & H3 & H4 & H5 & H6 & H7).
  exists es, (r_pos rep). repeat split; auto.
  assert (Hb : forall x, In x (edits_ops 0 es) -> snd x <= List.length s).
  { clear - H6 H2. revert H6. generalize 0 at 1 as i. generalize (edits_ops 0 es) as l.
    induction l as [|[[k|lb] q] l IH]; simpl; intros i Hs y Hy; [destruct Hy| |];
      destruct Hy as [<-|Hy]; simpl.
    - destruct Hs as (_ & _ & Hs). apply ops_sorted_le in Hs. lia.
    - destruct Hs as (_ & _ & Hs). eauto.
    - destruct Hs as (_ & Hs). apply ops_sorted_le in Hs. lia.
    - destruct Hs as (_ & Hs). eauto. }
  clear - H3 Hb. induction H3 as [|e o es' ops (A1 & A2 & A3) Hr IH]; constructor.
  - split; auto. rewrite A2. apply loc_from_stream_spec. apply Hb. simpl; auto.
  - apply IH. intros x Hx. apply Hb. simpl; auto.
Qed.
Print Assumptions C40_token_locations_of_repairs.

(** token(kind) accepts exactly the tokens of that kind *)
Theorem C40_token_accepts :
  forall V (E : env token V) kind n s pos c r,
  fast E n (token_p kind) s pos c = Ret r ->
  (exists t, nth_error s pos = Some t /\ tk_kind t = kind /\
     r = SOk (Ok t (pos + 1) c [] true)) \/
  ((forall t, nth_error s pos = Some t -> tk_kind t <> kind) /\
   r = SErr (Err (get_loc c s pos) [kind] false)).
Proof.
  intros V E kind n s pos c r H. destruct n as [|[|n]]; try discriminate.
  unfold token_p in H. cbn [fast] in H. unfold label_fast, satisfy_fast, probe_tok in H.
  destruct (nth_error s pos) as [t|] eqn:Hn; simpl in H.
  - destruct (String.eqb_spec (tk_kind t) kind) as [Hk|Hk]; simpl in H; injection H as <-.
    + left. exists t. auto.
    + right. split; auto. intros t' Ht'. injection Ht' as <-. exact Hk.
  - injection H as <-. right. split; auto. discriminate.
Qed.
Print Assumptions C40_token_accepts.

(** token_ins(kind, value): when the token is not there and insertions are
    still allowed, the first repair offered inserts Token(kind, value) located
    at the current position, reported under the name [kind]. *)
Theorem C40_token_ins :
  forall V (E : env token V) kind v n s pos c ins m r,
  pos <= List.length s -> m <> 0%Z ->
  (forall t, nth_error s pos = Some t -> tk_kind t <> kind) ->
  full E n (token_ins kind v) s pos c ins (Some m) = Ret r ->
  exists l rep rest rc,
    r = RRec rc /\ rc_reps rc = rep :: rest /\ token_loc s pos l /\
    r_val rep = Token kind v l l /\ r_pos rep = pos /\ r_cost rep = 1 /\
    map op_op (r_ops rep) = [Insert kind].
Proof.
  intros V E kind v n s pos c ins m r Hp Hm Hno H. destruct n as [|[|[|n]]]; try discriminate.
  unfold token_ins, token_p in H. cbn [full] in H. unfold recover_with_full in H.
  destruct (label_full _ _ _ _ _ _ _) as [r0| |] eqn:H0; try discriminate. simpl in H.
  unfold label_full in H0. apply obind_ret in H0 as [r1 [H1 H0]]. injection H0 as <-.
  unfold satisfy_full in H1. apply obind_ret in H1 as [x [Hx H1]].
  unfold probe_tok in Hx. destruct (nth_error s pos) as [t|] eqn:Hn.
  - simpl in Hx. destruct (String.eqb_spec (tk_kind t) kind) as [Hk|Hk];
      [destruct (Hno t eq_refl Hk)|]. injection Hx as <-.
    apply obind_ret in H1 as [f [_ H1]].
    destruct f as [[cur u]|]; injection H1 as <-; simpl in H;
      (destruct (Z.eqb_spec m 0); [contradiction|]); injection H as <-;
      exists (loc_from_stream s pos); do 3 eexists; repeat split; auto using loc_from_stream_spec.
  - injection Hx as <-. apply obind_ret in H1 as [f [_ H1]].
    destruct f as [[cur u]|]; injection H1 as <-; simpl in H;
      (destruct (Z.eqb_spec m 0); [contradiction|]); injection H as <-;
      exists (loc_from_stream s pos); do 3 eexists; repeat split; auto using loc_from_stream_spec.
Qed.
Print Assumptions C40_token_ins.

Example C40_case :
  let s := [Token "num" (ex_str "12") (Loc 0 0 0) (Loc 2 0 2)] in
  let E : env token (fun _ => token) := fun _ => GUndef in
  match lexer_parse E 9 (seql (token_p "num") (token_ins "end" (ex_str ";"))) s true with
  | Ret r => (exists t, unwrap r true = Returns t) /\
      exists e, unwrap r false = Raises [e] /\ ei_loc e = Loc 2 0 2 /\
        ei_loc_str e = "1:3"%string /\ ei_op e = Some (Insert "end")
  | _ => False
  end.
Proof. vm_compute. split; eauto 8. Qed.
