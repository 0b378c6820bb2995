(** Proofs about the model of tests/parsers/yamlish.py *)
From Verif Require Import Fuel Api ApiSpec ApiProofs Locations PegSpec PropsPeg Json JsonSpec JsonProofs JsonText JsonTextProofs JsonTextMain
  JsonScanProofs Yamlish YamlishSpec.
From Coq Require Import Lia.

(** *** Inversion of successful runs *)
Definition peg_won {T V} (E : env T V) s col {A} (g : gram T V A) (m : Z) (i : nat) (v : A) (j : nat) : Prop :=
  match g in Verif.Grammar.gram _ _ A return A -> Prop with
  | GEof => fun v => i = List.length s /\ j = i
  | GRegexp re => fun v => re s i = Some (j, Some v)
  | @GFmap _ _ B _ p f => fun v => exists w, peg E s col B p m i (PSucc w j) /\ f w = Ret v
  | GAlt p q => fun v => peg E s col _ p m i (PSucc v j) \/ peg E s col _ p m i (PFail false) /\ peg E s col _ q m i (PSucc v j)
  | @GSeq _ _ B C _ p q merge => fun v => exists x y k,
      peg E s col B p m i (PSucc x k) /\ peg E s col C q m k (PSucc y j) /\ v = merge x y
  | @GMany _ _ B p => fun v =>
      (v = [] /\ j = i) \/
      exists x l k, v = x :: l /\ i < k /\ peg E s col B p m i (PSucc x k) /\ peg E s col _ (GMany p) m k (PSucc l j)
  | GAligned p => fun v => col i = m /\ peg E s col _ p m i (PSucc v j)
  | GIndented delta p => fun v => col i = (m + delta)%Z /\ peg E s col _ p (col i) i (PSucc v j)
  | GDelay d => fun v => peg E s col _ (E d) m i (PSucc v j)
  | _ => fun _ => True
  end v.
Lemma peg_win T V (E : env T V) s col A (g : gram T V A) m i v j :
  peg E s col A g m i (PSucc v j) -> peg_won E s col g m i v j.
Proof.
  intros H.
  assert (K : forall A (g : gram T V A) m i o, peg E s col A g m i o ->
    match o with PSucc v j => peg_won E s col g m i v j | _ => True end).
  { clear. intros A g m i o H. destruct H; cbn [peg_won]; try exact I; auto.
    - eauto.
    - destruct o as [v k| |]; auto.
    - destruct o as [v' k| |]; cbn [after]; exact I.
    - destruct o as [v' k|b|e]; cbn [after on_value]; [|destruct b; exact I|exact I]. exists v, v', j. auto.
    - right. exists v, l, j. auto.
    - destruct o; exact I.
    - destruct o; exact I.
    - destruct o; exact I.
    - destruct o; exact I.
    - destruct o; exact I.
    - destruct o; auto.
    - destruct o; auto.
    - destruct o; auto. }
  exact (K _ _ _ _ _ H).
Qed.

(** *** Lists *)
Lemma skip_at (s x rest : list char) i : skipn i s = x ++ rest -> i <= List.length s ->
  skipn (i + List.length x) s = rest /\ i + List.length x <= List.length s /\ firstn (i + List.length x) s = firstn i s ++ x.
Proof.
  intros H Hi. split; [|split].
  - rewrite <- skipn_skipn_add, H. apply skipn_app_exact.
  - apply (f_equal (@List.length _)) in H. rewrite skipn_length, app_length in H. lia.
  - rewrite firstn_add, H. f_equal. rewrite firstn_app, Nat.sub_diag, firstn_all. cbn. apply app_nil_r.
Qed.
Lemma nl_none (l : list char) : List.length (filter newline l) = 0 <-> ~ In 10%N l.
Proof.
  induction l as [|c l IH]; cbn [filter]; [cbn; tauto|]. unfold newline at 1. destruct (N.eqb_spec c 10) as [->|H].
  - cbn. split; [discriminate|tauto].
  - rewrite IH. cbn. intuition.
Qed.
Lemma col_same s x rest i : skipn i s = x ++ rest -> i <= List.length s -> ~ In 10%N x ->
  true_col s (i + List.length x) = List.length x + true_col s i.
Proof.
  intros H Hi Hx. destruct (skip_at _ _ _ _ H Hi) as (_ & _ & F). unfold true_col. unfold char in *. rewrite F, rev_app_distr, line_run_app.
  rewrite rev_length. rewrite (proj2 (nl_none (rev x))); [reflexivity|]. rewrite <- in_rev. exact Hx.
Qed.
Lemma col_nl s x a b rest i : skipn i s = x ++ rest -> i <= List.length s -> x = a ++ 10%N :: b -> ~ In 10%N b ->
  true_col s (i + List.length x) = List.length b.
Proof.
  intros H Hi Hx Hb. destruct (skip_at _ _ _ _ H Hi) as (_ & _ & F). unfold true_col. unfold char in *. rewrite F, Hx, !rev_app_distr. cbn [rev].
  rewrite <- !app_assoc. rewrite line_run_app. rewrite rev_length. rewrite (proj2 (nl_none (rev b))); [|rewrite <- in_rev; exact Hb].
  cbn. lia.
Qed.
Lemma last_nl (x : list char) : ~ In 10%N x \/ exists a b, x = a ++ 10%N :: b /\ ~ In 10%N b.
Proof.
  induction x as [|c x IH]; [left; auto|]. destruct IH as [IH|(a & b & -> & Hb)].
  - destruct (N.eq_dec c 10) as [->|H]; [right; exists [], x; auto|]. left. cbn. intuition.
  - right. exists (c :: a), b. auto.
Qed.

(** *** Names, colons and gaps *)
Lemma ystart_letter c : ystart c = true <-> letter c.
Proof.
  unfold ystart, in_range, letter. unfold char in *. rewrite !orb_true_iff, !andb_true_iff, !N.leb_le, N.eqb_eq. lia.
Qed.
Lemma ychar_spec c : ychar c = true <-> letter c \/ (48 <= c <= 57)%N.
Proof.
  unfold ychar. rewrite orb_true_iff, ystart_letter. unfold in_range. unfold char in *. rewrite andb_true_iff, !N.leb_le. tauto.
Qed.
Lemma yblank_spec c : yblank c = true <-> c = 32%N \/ c = 9%N.
Proof. unfold yblank. rewrite orb_true_iff, !N.eqb_eq. tauto. Qed.

Section Y.
Variable space : char -> bool.
Hypothesis space_name : forall c, letter c -> space c = false.
Variable src : list char.
Notation E := (yaml_E space).
Notation col := (fun i => loc_col (true_loc src i)).
Notation pg := (peg E src col).
Notation gapped := (is_gap space).

(** what a match of a pattern says about the text *)
Definition reads (re : list char -> nat -> option (nat * option (list char))) (P : list char -> Prop) : Prop :=
  forall i e x, i <= List.length src -> re src i = Some (e, Some x) ->
    P x /\ x = firstn (e - i) (skipn i src) /\ i <= e <= List.length src /\ skipn i src = x ++ skipn e src.
Lemma matched_reads i n e x : i <= List.length src -> matched src i n = Some (e, Some x) -> n <= List.length (skipn i src) ->
  x = firstn n (skipn i src) /\ e = i + n /\ x = firstn (e - i) (skipn i src) /\ i <= e <= List.length src /\ skipn i src = x ++ skipn e src.
Proof using.
  unfold matched. intros Hi [= <- <-] Hn. rewrite skipn_length in Hn. replace (i + n - i) with n by lia.
  repeat split; try lia. rewrite <- skipn_skipn_add. symmetry. apply firstn_skipn.
Qed.
Lemma ident_reads : reads re_ident is_name.
Proof using.
  intros i e x Hi. unfold re_ident. destruct (skipn i src) as [|c r] eqn:SS; [discriminate|]. destruct (ystart c) eqn:Q; [|discriminate].
  intros H. destruct (span_split ychar r) as (L1 & L2 & L3).
  apply matched_reads in H as (H1 & H2 & H3 & H4 & H5); [|auto|rewrite SS; cbn; lia]. rewrite SS in *.
  split; [|auto]. cbn [firstn] in H1. exists c, (firstn (span ychar r) r). split; [exact H1|]. split; [apply ystart_letter; exact Q|].
  eapply Forall_impl; [|exact L2]. intros a. apply ychar_spec.
Qed.
Lemma colon_reads : reads re_colon is_colon.
Proof using.
  intros i e x Hi. unfold re_colon. cbv zeta. destruct (span_split yblank (skipn i src)) as (L1 & L2 & L3).
  set (n := span yblank (skipn i src)) in *. destruct (skipn n (skipn i src)) as [|c r] eqn:SS; [discriminate|].
  destruct (N.eqb_spec c 58) as [->|]; [|discriminate]. destruct (span_split yblank r) as (M1 & M2 & M3).
  assert (LL : List.length (skipn i src) = n + S (List.length r)).
  { rewrite <- (firstn_skipn n (skipn i src)), app_length, L1, SS. reflexivity. }
  intros H. apply matched_reads in H as (H1 & H2 & H3 & H4 & H5); [|auto|lia].
  split; [|auto]. exists (firstn n (skipn i src)), (firstn (span yblank r) r). split.
  - rewrite H1, firstn_add, SS. cbn [firstn]. reflexivity.
  - apply Forall_app. split; (eapply Forall_impl; [|eassumption]); intros a; apply yblank_spec.
Qed.
Lemma eol_reads i e x : i <= List.length src -> re_eol space src i = Some (e, Some x) ->
  gapped x (true_col src e) /\ i < e <= List.length src /\ skipn i src = x ++ skipn e src.
Proof using.
  intros Hi. unfold re_eol. destruct (skipn i src) as [|c r] eqn:SS; [discriminate|]. destruct (N.eqb_spec c 10) as [->|]; [|discriminate].
  intros H. destruct (span_split space r) as (L1 & L2 & L3).
  apply matched_reads in H as (H1 & H2 & H3 & H4 & H5); [|auto|rewrite SS; cbn; lia]. rewrite SS in *. cbn [firstn] in H1.
  split; [|split; [lia|exact H5]].
  assert (LX : List.length x = S (span space r)) by (rewrite H1; cbn; lia).
  destruct (last_nl x) as [N|(a & b & X & Hb)]; [exfalso; apply N; rewrite H1; left; reflexivity|].
  exists (firstn (span space r) r), b. split; [exact H1|]. split; [exact L2|]. split; [exact Hb|]. split; [|eauto].
  pose proof (col_nl src x a b (skipn e src) i (eq_trans SS H5) Hi X Hb) as K. unfold char in *. rewrite LX, <- H2 in K. exact K.
Qed.

(** *** Soundness: what was read *)
(** lines [ls] from [i] to [j] *)
Definition spans (i j : nat) (ls : list line) : Prop :=
  i <= j <= List.length src /\
  forall u rest, (j = List.length src -> u = []) -> lines_of space u (true_col src j) rest ->
    lines_of space (firstn (j - i) (skipn i src) ++ u) (true_col src i) (ls ++ rest).
Lemma cut_at i j x : skipn i src = x ++ skipn j src -> i <= j <= List.length src -> firstn (j - i) (skipn i src) = x.
Proof using.
  intros H Hj. assert (L : j - i = List.length x).
  { apply (f_equal (@List.length _)) in H. rewrite app_length, !skipn_length in H. unfold char in *. lia. }
  rewrite L, H, firstn_app, Nat.sub_diag, firstn_all. cbn. apply app_nil_r.
Qed.
Lemma spans_trans i j k l1 l2 : spans i j l1 -> spans j k l2 -> (j = List.length src -> j = k) -> spans i k (l1 ++ l2).
Proof using.
  intros [H1 K1] [H2 K2] Hk. split; [lia|]. intros u rest Hu R. rewrite <- app_assoc.
  replace (firstn (k - i) (skipn i src) ++ u) with (firstn (j - i) (skipn i src) ++ (firstn (k - j) (skipn j src) ++ u)).
  - apply K1; [|apply K2; assumption]. intros E0. specialize (Hk E0). subst j. rewrite Nat.sub_diag, Hu; [reflexivity|congruence].
  - rewrite app_assoc. f_equal. replace (k - i) with ((j - i) + (k - j)) by lia. rewrite firstn_add. f_equal.
    rewrite skipn_skipn_add. replace (i + (j - i)) with j by lia. reflexivity.
Qed.
Lemma lines_nil c ls : lines_of space [] c ls -> ls = [].
Proof using.
  intros H. remember (@nil char) as s eqn:Es. assert (NE : forall l x, spelled l x -> x <> []).
  { intros l x [? k v w (a & r & -> & _)|? k w (a & r & -> & _)]; discriminate. }
  destruct H as [|k v c x gap c' rest ls Hs|k v c x Hs]; [reflexivity| |].
  - apply app_eq_nil in Es as [Es _]. exfalso. eapply NE; eauto.
  - exfalso. eapply NE; eauto.
Qed.
Definition pair_ok (i : nat) : Prop := forall m kv j, i <= List.length src ->
  pg _ ypair m i (PSucc kv j) -> m = Z.of_nat (true_col src i) ->
  i < j /\ exists ls, ls <> [] /\ spans i j ls /\ forall ls2 kvs, items (true_col src i) ls2 kvs -> items (true_col src i) (ls ++ ls2) (kv :: kvs).
Definition pairs_ok (i : nat) : Prop := forall m kvs j, i <= List.length src ->
  pg _ ypairs (Z.of_nat m) i (PSucc kvs j) ->
  exists ls, spans i j ls /\ items m ls kvs.
Lemma pairs_from i : (forall i', i <= i' -> pair_ok i') -> pairs_ok i.
Proof using.
  remember (List.length src - i) as n eqn:En. revert i En.
  induction n as [n IH] using lt_wf_ind. intros i En H m kvs j Hi D. apply peg_win in D.
  destruct D as [[-> ->]|(kv & l & k & -> & Hk & D1 & D2)].
  - exists []. split; [split; [lia|intros u rest _ R; rewrite Nat.sub_diag; exact R]|constructor].
  - apply peg_win in D1 as [C D1]. cbn [loc_col true_loc] in C.
    destruct (H i ltac:(lia) _ _ _ Hi D1 (eq_sym C)) as (_ & ls & N & S1 & T). pose proof (proj1 S1) as B1. assert (CC : true_col src i = m) by lia.
    destruct (IH (List.length src - k) ltac:(lia) k eq_refl (fun i' H' => H i' ltac:(lia)) m l j ltac:(lia) D2) as (ls' & S1' & T'). pose proof (proj1 S1') as B2.
    exists (ls ++ ls'). split; [|rewrite CC in T; apply T; exact T']. eapply spans_trans; eauto. lia.
Qed.
Lemma pair_sound : forall i, pair_ok i.
Proof using.
  assert (K : forall n i, List.length src - i < n -> pair_ok i).
  2:{ intros i. apply (K (S (List.length src - i))). lia. }
  induction n as [|n IH]; intros i Hn; [lia|]. intros m kv j Hi D Hm.
  apply peg_win in D. cbn [peg_won] in D. apply peg_win in D as (k & v & p & D1 & D2 & ->).
  apply peg_win in D1 as (k' & w & q & D0 & D1 & ->). apply peg_win in D0, D1. cbn [peg_won] in D0, D1.
  apply ident_reads in D0 as (Nk & _ & Lq & Sk); [|auto]. apply colon_reads in D1 as (Cw & _ & Lp & Sw); [|lia].
  assert (Lk : i < q).
  { destruct Nk as (a & r & -> & _). apply (f_equal (@List.length _)) in Sk. rewrite app_length, !skipn_length in Sk. cbn in Sk. lia. }
  apply peg_win in D2 as [D2|[_ D2]].
  - apply peg_win in D2 as (x & D2 & [= <-]). apply peg_win in D2 as (x' & y & e & D2 & D3 & ->).
    apply peg_win in D2. cbn [peg_won] in D2. apply ident_reads in D2 as (Nv & _ & Le & Sv); [|lia].
    apply peg_win in D3 as [D3|[_ D3]].
    + apply peg_win in D3 as (g & D3 & _). apply peg_win in D3. cbn [peg_won] in D3. apply eol_reads in D3 as (G & Lj & Sg); [|lia].
      split; [lia|]. exists [Line (true_col src i) k' (Some x')]. split; [discriminate|]. split.
      * split; [lia|]. intros u rest _ R. rewrite (cut_at i j (k' ++ w ++ x' ++ g)); [|rewrite Sk, Sw, Sv, Sg, <- !app_assoc; reflexivity|lia]. cbn [app].
        replace ((k' ++ w ++ x' ++ g) ++ u) with ((k' ++ w ++ x') ++ g ++ u) by (rewrite <- !app_assoc; reflexivity).
        eapply lo_line; [apply sp_leaf; assumption|exact G|exact R].
      * intros ls2 kvs R. apply it_leaf. exact R.
    + apply peg_win in D3 as [-> ->]. split; [lia|]. exists [Line (true_col src i) k' (Some x')]. split; [discriminate|]. split.
      * split; [lia|]. intros u rest Hu R. specialize (Hu eq_refl). subst u. apply lines_nil in R. subst rest.
        rewrite (cut_at i _ (k' ++ w ++ x')); [|rewrite Sk, Sw, Sv, <- !app_assoc; reflexivity|lia]. rewrite app_nil_r. cbn [app]. apply lo_last. apply sp_leaf; assumption.
      * intros ls2 kvs R. apply it_leaf. exact R.
  - apply peg_win in D2 as (g & v' & e & D2 & D3 & ->). apply peg_win in D2. cbn [peg_won] in D2. apply eol_reads in D2 as (G & Le & Sg); [|lia].
    apply peg_win in D3 as [C D3]. cbn [loc_col true_loc] in C. apply peg_win in D3 as ([kv kvs] & D3 & Hv). injection Hv as <-. cbn [fst snd].
    apply peg_win in D3 as (kv' & kvs' & t & D3 & D4 & [= -> ->]).
    destruct (IH e ltac:(lia) _ _ _ ltac:(lia) D3 eq_refl) as (Lt & ls & N & S1 & T). pose proof (proj1 S1) as B1.
    assert (PK : pairs_ok t) by (apply pairs_from; intros i' Hi'; apply IH; lia).
    destruct (PK _ _ _ ltac:(lia) D4) as (ls' & S1' & T'). pose proof (proj1 S1') as B2.
    assert (S2 : spans e j (ls ++ ls')) by (eapply spans_trans; eauto; lia). destruct S2 as [S2 S3].
    split; [lia|]. exists (Line (true_col src i) k' None :: ls ++ ls'). split; [discriminate|]. split.
    + split; [lia|]. intros u rest Hu R. rewrite (cut_at i j ((k' ++ w) ++ g ++ firstn (j - e) (skipn e src))).
      * replace (((k' ++ w) ++ g ++ firstn (j - e) (skipn e src)) ++ u) with ((k' ++ w) ++ g ++ firstn (j - e) (skipn e src) ++ u)
          by (rewrite <- !app_assoc; reflexivity).
        eapply lo_line; [apply sp_open; assumption|exact G|]. auto.
      * rewrite Sk, Sw, Sg, <- !app_assoc. do 3 f_equal. rewrite <- (firstn_skipn (j - e) (skipn e src)) at 1.
        f_equal. rewrite skipn_skipn_add. f_equal. lia.
      * lia.
    + intros ls2 kvs0 R. cbn [app].
      assert (CC : true_col src e = true_col src i + 4) by lia. rewrite CC in *.
      eapply it_nested; [|apply T; exact T'|apply dict_of_is_dict|exact R]. destruct ls; [contradiction|discriminate].
Qed.

(** *** Completeness: reading what is written *)
Lemma match_at i x rest : i <= List.length src -> skipn i src = x ++ rest ->
  matched src i (List.length x) = Some (i + List.length x, Some x).
Proof using.
  intros Hi H. unfold matched. rewrite H. rewrite firstn_app, Nat.sub_diag, firstn_all. cbn. rewrite app_nil_r. reflexivity.
Qed.
Lemma ident_at i k rest : i <= List.length src -> skipn i src = k ++ rest -> is_name k -> hd_not ychar rest ->
  re_ident src i = Some (i + List.length k, Some k).
Proof using.
  intros Hi H (c & r & -> & Hc & Hr) Hn. unfold re_ident. rewrite H. cbn [app]. rewrite (proj2 (ystart_letter c) Hc).
  rewrite span_app; [|eapply Forall_impl; [|exact Hr]; intros a; apply ychar_spec|exact Hn].
  exact (match_at i (c :: r) rest Hi H).
Qed.
Lemma colon_at i w rest : i <= List.length src -> skipn i src = w ++ rest -> is_colon w -> hd_not yblank rest ->
  re_colon src i = Some (i + List.length w, Some w).
Proof using.
  intros Hi H (a & b & -> & Hab) Hn. apply Forall_app in Hab as [Ha Hb].
  assert (B : forall l, Forall (fun c => c = 32%N \/ c = 9%N) l -> Forall (fun c => yblank c = true) l).
  { intros l. apply Forall_impl. intros c. apply yblank_spec. }
  unfold re_colon. cbv zeta. rewrite H. rewrite <- app_assoc. cbn [app]. rewrite span_app; [|auto|reflexivity].
  unfold char in *. rewrite skipn_app_exact. change (N.eqb 58 58) with true. cbv iota. rewrite span_app; [|auto|exact Hn].
  pose proof (match_at i _ rest Hi H) as K. rewrite app_length in K. cbn [List.length] in K. rewrite app_length. exact K.
Qed.
Lemma eol_at i x c rest : i <= List.length src -> skipn i src = x ++ rest -> gapped x c -> hd_not space rest ->
  re_eol space src i = Some (i + List.length x, Some x) /\ true_col src (i + List.length x) = c.
Proof using.
  intros Hi H (a & b & Hx & Ha & Hb & -> & a' & Hx') Hn. split.
  - unfold re_eol. rewrite H, Hx. cbn [app]. unfold char in *. rewrite N.eqb_refl. rewrite span_app; [|exact Ha|exact Hn].
    rewrite <- Hx. pose proof (match_at i x rest Hi H) as K. rewrite Hx in K at 1. exact K.
  - eapply col_nl; eauto.
Qed.
Lemma letter_blank c : letter c -> yblank c = false.
Proof using. unfold letter, yblank. intros H. unfold char in *. apply orb_false_iff. rewrite !N.eqb_neq. lia. Qed.
Lemma lines_hd c ls s : lines_of space s c ls -> hd_not space s.
Proof using space_name.
  assert (K : forall l x, spelled l x -> exists a r, x = a :: r /\ letter a).
  { intros l x [? k v w (a & r & -> & La & _)|? k w (a & r & -> & La & _)]; cbn [app]; eauto. }
  intros [|k v c0 x gap c' rest ls' Hs|k v c0 x Hs]; [exact I| |]; apply K in Hs as (a & r & -> & La); cbn; auto.
Qed.
Lemma colon_hd w rest : is_colon w -> hd_not ychar (w ++ rest).
Proof using.
  intros (a & b & -> & H). apply Forall_app in H as [H _]. destruct H as [|x a [-> | ->] H]; reflexivity.
Qed.
Lemma name_blank v rest : is_name v -> hd_not yblank (v ++ rest).
Proof using. intros (c & r & -> & Hc & _). cbn. apply letter_blank. exact Hc. Qed.
Lemma gap_hd g c rest (p : char -> bool) : gapped g c -> p 10%N = false -> hd_not p (g ++ rest).
Proof using. intros (a & b & -> & _) H. exact H. Qed.

Lemma seq_fwd A B C (p : gram char yaml_V A) (q : gram char yaml_V B) (f : A -> B -> C) m i v j w k :
  pg _ p m i (PSucc v j) -> pg _ q m j (PSucc w k) -> pg _ (GSeq p q f) m i (PSucc (f v w) k).
Proof using. intros H1 H2. exact (pg_seq E src col _ _ _ p q f m i v j (PSucc w k) H1 H2). Qed.
Lemma re_fwd (re : list char -> nat -> option (nat * option (list char))) m i e x :
  re src i = Some (e, Some x) -> pg _ (GRegexp re) m i (PSucc x e).
Proof using. apply pg_re. Qed.
Lemma delay_fwd m i (o : pres (list char * yaml)) :
  pg (list char * yaml) (GSeq (seql yident ycolon) (yvalue space) pair) m i o -> pg (list char * yaml) ypair m i o.
Proof using. intros H. exact (pg_delay E src col 0 m i o H). Qed.
(** the key and the colon *)
Lemma key_at m i k w rest : i <= List.length src -> skipn i src = k ++ w ++ rest -> is_name k -> is_colon w -> hd_not yblank rest ->
  pg _ (seql yident ycolon) m i (PSucc k (i + List.length (k ++ w))) /\ skipn (i + List.length (k ++ w)) src = rest /\
  i < i + List.length (k ++ w) <= List.length src.
Proof using.
  intros Hi H Nk Cw Hn. destruct (skip_at _ _ _ _ H Hi) as (S1 & L1 & _). destruct (skip_at _ _ _ _ S1 L1) as (S2 & L2 & _).
  rewrite app_length, Nat.add_assoc. split; [|split; [exact S2|]].
  - eapply (seq_fwd _ _ _ _ _ (fun l _ => l)); apply re_fwd; [eapply ident_at; eauto using colon_hd|eapply colon_at; eauto].
  - destruct Nk as (c & r & -> & _). cbn [List.length] in *. lia.
Qed.
Lemma no_ident i m : i <= List.length src -> hd_not ystart (skipn i src) -> pg _ yident m i (PFail false).
Proof using.
  intros Hi H. apply pg_re_no. intros (e & v & R). unfold re_ident in R. destruct (skipn i src) as [|c r]; [discriminate|].
  cbn in H. rewrite H in R. discriminate.
Qed.

Definition below (c : nat) (rest : list line) : Prop := match rest with [] => True | l :: _ => ln_col l < c end.
Lemma lines_col s c l ls : lines_of space s c (l :: ls) -> ln_col l = c.
Proof using.
  intros H. remember (l :: ls) as L eqn:EL. destruct H; [discriminate| |]; injection EL as <- _; reflexivity.
Qed.
Lemma items_col c ls kvs : items c ls kvs -> match ls with [] => kvs = [] | l :: _ => ln_col l = c /\ kvs <> [] end.
Proof using. intros [| |]; cbn; auto; split; auto; discriminate. Qed.
Lemma lines_line i c k v ls : i <= List.length src -> lines_of space (skipn i src) c (Line c k v :: ls) -> exists x,
  spelled (Line c k v) x /\
  ((exists g c' rest, skipn i src = x ++ g ++ rest /\ gapped g c' /\ lines_of space rest c' ls) \/
   (exists v', v = Some v') /\ ls = [] /\ skipn i src = x).
Proof using.
  intros Hi H. remember (skipn i src) as s eqn:Es. remember (Line c k v :: ls) as L eqn:EL. destruct H as [|k' v' c' x g c2 rest ls' Hs Hg Hl|k' v' c' x Hs]; [discriminate| |].
  - injection EL as -> -> ->. exists x. split; [exact Hs|]. left. exists g, c2, rest. subst. auto.
  - injection EL as -> <- <-. exists x. split; [exact Hs|]. right. eauto.
Qed.
Lemma leaf_inv c k v x : spelled (Line c k (Some v)) x -> exists w, x = k ++ w ++ v /\ is_name k /\ is_colon w /\ is_name v.
Proof using. intros H. remember (Line c k (Some v)) as l eqn:El. destruct H; [|discriminate]. injection El as -> -> ->. eauto 6. Qed.
Lemma open_inv c k x : spelled (Line c k None) x -> exists w, x = k ++ w /\ is_name k /\ is_colon w.
Proof using. intros H. remember (Line c k None) as l eqn:El. destruct H; [discriminate|]. injection El as -> ->. eauto 6. Qed.

Lemma pairs_complete c ls kvs : items c ls kvs -> forall i rest, i <= List.length src ->
  lines_of space (skipn i src) (true_col src i) (ls ++ rest) -> below c rest ->
  exists j, pg _ ypairs (Z.of_nat c) i (PSucc kvs j) /\ i <= j <= List.length src /\ lines_of space (skipn j src) (true_col src j) rest.
Proof using space_name.
  intros H. induction H as [c|c k v ls kvs H IH|c k sub d ls1 ls2 kvs Hne H1 IH1 Hd H2 IH2]; intros i rest Hi L Hb.
  - exists i. split; [|split; [lia|exact L]]. apply pg_many_stop. cbn [app] in L. destruct rest as [|l rest].
    + destruct (Z.eq_dec (col i) (Z.of_nat c)) as [Q|Q]; [|apply pg_aligned_no; exact Q].
      apply pg_aligned; [exact Q|]. apply delay_fwd. apply pg_seq_fail, pg_seq_fail, no_ident; [exact Hi|].
      remember (@nil line) as N eqn:EN. destruct L; [exact I|discriminate|discriminate].
    + apply pg_aligned_no. apply lines_col in L. cbn in Hb. cbn [loc_col true_loc]. lia.
  - cbn [app] in L. pose proof (lines_col _ _ _ _ L) as Q. cbn [ln_col] in Q. rewrite <- Q in L.
    apply lines_line in L as (x & Hx & HL); [|exact Hi]. apply leaf_inv in Hx as (w & -> & Nk & Cw & Nv).
    destruct HL as [(g & c' & tl & Hs & Hg & HL)|(_ & Hls & Hs)].
    + rewrite <- !app_assoc in Hs.
      destruct (key_at (Z.of_nat c) i k w (v ++ g ++ tl) Hi Hs Nk Cw (name_blank _ _ Nv)) as (P1 & S1 & L1).
      set (p := i + List.length (k ++ w)) in *.
      pose proof (ident_at p v (g ++ tl) ltac:(lia) S1 Nv (gap_hd _ _ _ _ Hg eq_refl)) as P2.
      destruct (skip_at _ _ _ _ S1 ltac:(lia)) as (S2 & L2 & _).
      destruct (eol_at _ _ _ _ L2 S2 Hg (lines_hd _ _ _ HL)) as [P3 C3].
      destruct (skip_at _ _ _ _ S2 L2) as (S3 & L3 & _). set (e := p + List.length v + List.length g) in *.
      destruct (IH e rest L3) as (j & PJ & LJ & RJ); [rewrite S3, C3; exact HL|exact Hb|].
      exists j. split; [|split; [unfold e in LJ; lia|exact RJ]]. eapply pg_many_more; [|apply pg_aligned|exact PJ].
      * unfold e. lia.
      * cbn [loc_col true_loc]. lia.
      * apply delay_fwd. eapply (seq_fwd _ _ _ _ _ pair); [exact P1|]. apply pg_alt_l. eapply pg_fmap; [|reflexivity].
        eapply (seq_fwd _ _ _ _ _ (fun l _ => l)); [apply re_fwd; exact P2|]. apply pg_alt_l. eapply pg_fmap; [apply re_fwd; exact P3|reflexivity].
    + apply app_eq_nil in Hls as [-> ->]. assert (Hs' : skipn i src = k ++ w ++ v ++ []) by (rewrite app_nil_r; exact Hs).
      destruct (key_at (Z.of_nat c) i k w (v ++ []) Hi Hs' Nk Cw (name_blank _ _ Nv)) as (P1 & S1 & L1).
      set (p := i + List.length (k ++ w)) in *.
      pose proof (ident_at p v [] ltac:(lia) S1 Nv I) as P2.
      destruct (skip_at _ _ _ _ S1 ltac:(lia)) as (S2 & L2 & _). set (e := p + List.length v) in *.
      assert (EE : e = List.length src). { apply (f_equal (@List.length _)) in S2. rewrite skipn_length in S2. cbn in S2. lia. }
      destruct (IH e [] L2) as (j & PJ & LJ & RJ); [rewrite S2; constructor|exact I|].
      exists j. split; [|split; [unfold e in LJ; lia|exact RJ]]. eapply pg_many_more; [|apply pg_aligned|exact PJ].
      * unfold e. lia.
      * cbn [loc_col true_loc]. lia.
      * apply delay_fwd. eapply (seq_fwd _ _ _ _ _ pair); [exact P1|]. apply pg_alt_l. eapply pg_fmap; [|reflexivity].
        eapply (seq_fwd _ _ _ _ _ (fun l _ => l)); [apply re_fwd; exact P2|]. apply pg_alt_r; [|fold e; rewrite EE; apply pg_eof].
        apply pg_fmap_fail. apply pg_re_no. intros (e' & v' & R). unfold re_eol in R. fold e in R. rewrite S2 in R. discriminate.
  - cbn [app] in L. pose proof (lines_col _ _ _ _ L) as Q. cbn [ln_col] in Q. rewrite <- Q in L.
    apply lines_line in L as (x & Hx & HL); [|exact Hi]. apply open_inv in Hx as (w & -> & Nk & Cw).
    destruct HL as [(g & c' & tl & Hs & Hg & HL)|((v' & Hv) & _)]; [|discriminate].
    rewrite <- !app_assoc in Hs.
    destruct (key_at (Z.of_nat c) i k w (g ++ tl) Hi Hs Nk Cw (gap_hd _ _ _ _ Hg eq_refl)) as (P1 & S1 & L1).
    set (p := i + List.length (k ++ w)) in *.
    assert (Hp : p <= List.length src) by lia. destruct (eol_at _ _ _ _ Hp S1 Hg (lines_hd _ _ _ HL)) as [P3 C3].
    destruct (skip_at _ _ _ _ S1 Hp) as (S3 & L3 & _). set (e := p + List.length g) in *.
    rewrite <- app_assoc in HL.
    pose proof (items_col _ _ _ H1) as IC1. pose proof (items_col _ _ _ H2) as IC2.
    destruct ls1 as [|l1 ls1]; [contradiction|]. destruct IC1 as [IC1 Nsub].
    assert (CE : true_col src e = c + 4) by (rewrite C3, <- IC1; symmetry; eapply lines_col; exact HL).
    destruct (IH1 e (ls2 ++ rest) L3) as (j1 & PJ1 & LJ1 & RJ1); [rewrite S3, C3; exact HL| |].
    { destruct ls2 as [|l2 ls2]; cbn [app below].
      - destruct rest; cbn in *; lia.
      - destruct IC2 as [IC2 _]. lia. }
    destruct (IH2 j1 rest ltac:(lia) RJ1 Hb) as (j & PJ & LJ & RJ).
    exists j. split; [|split; [unfold e in *; lia|exact RJ]]. eapply pg_many_more; [|apply pg_aligned|exact PJ].
    + unfold e in *. lia.
    + cbn [loc_col true_loc]. lia.
    + apply peg_win in PJ1 as [[-> _]|(x & l & q & -> & Hq & D1 & D2)]; [contradiction|]. apply peg_win in D1 as [_ D1].
      apply delay_fwd. eapply (seq_fwd _ _ _ _ _ pair); [exact P1|]. apply pg_alt_r.
      * apply pg_fmap_fail, pg_seq_fail, no_ident; [exact Hp|]. rewrite S1. eapply gap_hd; [exact Hg|reflexivity].
      * eapply (seq_fwd _ _ _ _ _ (fun _ r => r)); [apply re_fwd; exact P3|]. fold e.
        assert (CZ : col e = Z.of_nat (c + 4)) by (cbn [loc_col true_loc]; lia).
        apply pg_indented; [cbn [loc_col true_loc]; lia|]. rewrite CZ.
        rewrite (is_dict_unique _ _ _ _ Hd (dict_of_is_dict _ _)).
        eapply pg_fmap; [eapply (seq_fwd _ _ _ _ _ pair); [exact D1|exact D2]|reflexivity].
Qed.

(** *** The whole text *)
Lemma true_col_ws w rest : src = w ++ rest -> forall c,
  (~ In 10%N w /\ c = List.length w \/ exists a b, w = a ++ 10%N :: b /\ ~ In 10%N b /\ c = List.length b) <-> c = true_col src (List.length w).
Proof using.
  intros H c. assert (H0 : skipn 0 src = w ++ rest) by exact H.
  assert (Z0 : true_col src 0 = 0) by reflexivity.
  split.
  - intros [[N ->]|(a & b & Hw & Hb & ->)].
    + pose proof (col_same src w rest 0 H0 (Nat.le_0_l _) N) as K. rewrite Z0, Nat.add_0_r in K. first [exact K|symmetry; exact K].
    + symmetry. exact (col_nl src w a b rest 0 H0 (Nat.le_0_l _) Hw Hb).
  - intros ->. destruct (last_nl w) as [N|(a & b & Hw & Hb)].
    + left. split; [exact N|]. pose proof (col_same src w rest 0 H0 (Nat.le_0_l _) N) as K. rewrite Z0, Nat.add_0_r in K. first [exact K|symmetry; exact K].
    + right. exists a, b. split; [exact Hw|]. split; [exact Hb|]. exact (col_nl src w a b rest 0 H0 (Nat.le_0_l _) Hw Hb).
Qed.
Lemma yaml_peg v : (exists j, pg _ (yaml_parser space) 0 0 (PSucc v j)) <-> means space src v.
Proof using space_name.
  split.
  - intros [j D]. apply peg_win in D as (v1 & u & e & D & D' & ->). apply peg_win in D' as [-> ->].
    apply peg_win in D as (w & v2 & p & D1 & D2 & ->). apply peg_win in D1. cbn [peg_won] in D1. unfold re_yows in D1.
    destruct (span_split space (skipn 0 src)) as (L1 & L2 & L3). apply matched_reads in D1 as (X1 & X2 & _ & X4 & X5); [|lia|exact L3].
    apply peg_win in D2 as (kvs & D2 & [= <-]).
    assert (PK : pairs_ok p) by (apply pairs_from; intros; apply pair_sound).
    destruct (PK 0 kvs _ ltac:(lia) D2) as (ls & [_ S0] & T).
    exists ls, kvs, (dict_of kvs). split; [|split; [exact T|split; [apply dict_of_is_dict|reflexivity]]].
    exists w, (skipn p src), (true_col src p). split; [exact X5|]. split; [rewrite X1; exact L2|]. split.
    + apply (true_col_ws w (skipn p src) X5). f_equal. rewrite X1. unfold char in *. rewrite L1. lia.
    + specialize (S0 [] []). rewrite !app_nil_r, (cut_at p _ (skipn p src)) in S0; [|rewrite skipn_all, app_nil_r; reflexivity|lia].
      apply S0; [reflexivity|constructor].
  - intros (ls & kvs & d & (w & rest & c & Hs & Hw & Hc & HL) & HI & Hd & ->).
    apply (true_col_ws w rest Hs) in Hc. assert (Hs0 : skipn 0 src = w ++ rest) by exact Hs.
    destruct (skip_at _ _ _ _ Hs0 ltac:(lia)) as (S1 & S2 & _). cbn [Nat.add] in S1, S2.
    destruct (pairs_complete 0 ls kvs HI (List.length w) [] S2) as (j & P & LJ & RJ).
    + rewrite app_nil_r, S1, <- Hc. exact HL.
    + exact I.
    + exists j. rewrite (is_dict_unique _ _ _ _ Hd (dict_of_is_dict _ _)).
      assert (EJ : j = List.length src).
      { remember (skipn j src) as t eqn:Et. remember (@nil line) as N eqn:EN. destruct RJ; try discriminate.
        apply (f_equal (@List.length _)) in Et. rewrite skipn_length in Et. cbn in Et. lia. }
      eapply (seq_fwd _ _ _ _ _ (fun l _ => l)); [|rewrite EJ; apply pg_eof].
      eapply (seq_fwd _ _ _ _ _ (fun _ r => r)); [|eapply pg_fmap; [rewrite <- EJ; exact P|reflexivity]].
      apply re_fwd. unfold re_yows. rewrite Hs0. rewrite span_app; [|exact Hw|eapply lines_hd; exact HL].
      exact (match_at 0 w rest ltac:(lia) Hs0).
Qed.
End Y.
