(** Where the errors of tests/parsers/yamlish.py are: proofs *)
From Verif Require Import Fuel Api ApiSpec ApiProofs Locations PegSpec PropsPeg DiagSpec Json JsonSpec JsonProofs JsonText JsonTextProofs JsonTextMain
  JsonScanProofs Yamlish YamlishSpec YamlishProofs.
From Coq Require Import Lia.

(** *** A run with diagnostics is a run *)
Definition undiag {A} (o : dres A) : pres A :=
  match o with DSucc v j _ => PSucc v j | DFail b _ _ => PFail b | DExn e => PExn e end.
Lemma undiag_after A i j X (o : dres A) : undiag (d_after i j X o) = after i j (undiag o).
Proof. destruct o as [v k Y|[] l Y|e]; reflexivity. Qed.
Lemma undiag_value A B (f : A -> B) o : undiag (on_dvalue f o) = on_value f (undiag o).
Proof. destruct o; reflexivity. Qed.
Lemma diag_peg T V (E : env T V) s at_ A (g : gram T V A) m i o :
  diag E s at_ A g m i o -> peg E s (fun i => loc_col (at_ i)) A g m i (undiag o).
Proof.
  induction 1; cbn [undiag] in *;
    rewrite ?undiag_value, ?undiag_after;
    try solve [econstructor; eauto].
  - (* alternative *) destruct o as [v k Y|[] l' Y|e]; cbn [undiag d_else] in *; eapply pg_alt_r; eauto.
  - (* label *) destruct o as [v k Y|[] l' Y|e]; cbn [undiag d_label] in *; apply pg_label; assumption.
Qed.

(** *** Inversion of failures *)
Definition diag_lost {T V} (E : env T V) s at_ {A} (g : gram T V A) (m : Z) (i : nat) (b : bool) (l : loc) : Prop :=
  match g with
  | GEof => i <> List.length s /\ l = at_ i /\ b = false
  | GRegexp re => l = at_ i /\ b = false
  | @GFmap _ _ B _ p f => exists X, diag E s at_ B p m i (DFail b l X)
  | GAlt p q => (exists X, diag E s at_ _ p m i (DFail true l X)) \/
      exists l' X b' l2 X', diag E s at_ _ p m i (DFail false l' X) /\ diag E s at_ _ q m i (DFail b' l2 X') /\
        b' = b /\ l = if b' then l2 else l'
  | @GSeq _ _ B C _ p q merge => (exists X, diag E s at_ B p m i (DFail b l X)) \/
      exists x k X b' X', diag E s at_ B p m i (DSucc x k X) /\ diag E s at_ C q m k (DFail b' l X') /\ b = (b' || Nat.ltb i k)%bool
  | @GMany _ _ B p => b = true /\ (exists X, diag E s at_ B p m i (DFail true l X)) \/
      exists x k X X', i < k /\ diag E s at_ B p m i (DSucc x k X) /\ diag E s at_ _ (GMany p) m k (DFail b l X')
  | GAligned p => b = false /\ l = at_ i \/ loc_col (at_ i) = m /\ exists X, diag E s at_ _ p m i (DFail b l X)
  | GIndented delta p => b = false /\ l = at_ i \/
      loc_col (at_ i) = (m + delta)%Z /\ exists X, diag E s at_ _ p (loc_col (at_ i)) i (DFail b l X)
  | GDelay d => exists X, diag E s at_ _ (E d) m i (DFail b l X)
  | _ => True
  end.
Lemma diag_fail T V (E : env T V) s at_ A (g : gram T V A) m i b l X :
  diag E s at_ A g m i (DFail b l X) -> diag_lost E s at_ g m i b l.
Proof.
  intros H.
  assert (K : forall A (g : gram T V A) m i o, diag E s at_ A g m i o ->
    match o with DFail b l X => diag_lost E s at_ g m i b l | _ => True end).
  { clear. intros A g m i o H. destruct H; cbn [diag_lost]; try exact I; eauto.
    - destruct o as [v k Y|[] l' Y|e]; cbn [d_else]; try exact I; right; eauto 10.
    - destruct o as [v' k Y|[] l' Y|e]; cbn [d_after]; exact I.
    - destruct o as [v' k Y|[] l' Y|e]; cbn [d_after on_dvalue]; try exact I; right; eauto 10.
    - right. eauto 10.
    - destruct o as [v' k Y|[] l' Y|e]; cbn [d_label]; exact I.
    - destruct o; exact I.
    - destruct o; exact I.
    - destruct o; exact I.
    - destruct o; exact I.
    - destruct o; eauto.
    - destruct o; eauto.
    - destruct o; eauto. }
  exact (K _ _ _ _ _ H).
Qed.

Section Err.
Variable space : char -> bool.
Hypothesis space_name : forall c, letter c -> space c = false.
Hypothesis space_nl : space 10%N = true.
Hypothesis space_sp : space 32%N = true.
Variable src : list char.
Notation E := (yaml_E space).
Notation dg := (diag E src (true_loc src)).
Notation gapped := (is_gap space).

(** the text from [i] to [p] can be continued to items in column [c] *)
Definition extends (i c p : nat) : Prop :=
  i <= p <= List.length src /\ exists u ls kvs, ls <> [] /\
    lines_of space (firstn (p - i) (skipn i src) ++ u) (true_col src i) ls /\ items c ls kvs.
Lemma cut_two i k p : i <= k <= p -> firstn (p - i) (skipn i src) = firstn (k - i) (skipn i src) ++ firstn (p - k) (skipn k src).
Proof using.
  intros H. replace (p - i) with ((k - i) + (p - k)) by lia. rewrite firstn_add, skipn_skipn_add. replace (i + (k - i)) with k by lia. reflexivity.
Qed.
Lemma name_a : is_name [97%N].
Proof using. exists 97%N, []. split; [reflexivity|]. split; [|constructor]. unfold letter. right; left. split; discriminate. Qed.
Lemma colon_c : is_colon [58%N].
Proof using. exists [], []. split; [reflexivity|constructor]. Qed.
Lemma line_a c : lines_of space [97%N; 58%N; 97%N] c [Line c [97%N] (Some [97%N])].
Proof using. apply lo_last. exact (sp_leaf c [97%N] [97%N] [58%N] name_a colon_c name_a). Qed.
Lemma no_nl_spaces n : ~ In 10%N (repeat 32%N n).
Proof using. intros H. apply repeat_spec in H. discriminate. Qed.
Lemma extends_here i : i <= List.length src -> extends i (true_col src i) i.
Proof using.
  intros Hi. split; [lia|]. exists [97%N; 58%N; 97%N]. do 2 eexists. split; [|split; [rewrite Nat.sub_diag; apply line_a|]]; [discriminate|].
  apply it_leaf, it_none.
Qed.
Lemma extends_leaf i p x u k v : i <= p <= List.length src -> skipn i src = x ++ skipn p src ->
  spelled (Line (true_col src i) k (Some v)) (x ++ u) -> extends i (true_col src i) p.
Proof using.
  intros Hi Hx H. split; [lia|]. exists u. do 2 eexists.
  split; [|split; [rewrite (cut_at src i p x Hx Hi); apply lo_last; exact H|]]; [discriminate|]. apply it_leaf, it_none.
Qed.
(** below a line without value *)
Lemma extends_below i e k w g p c' : i <= e -> e <= p -> skipn i src = k ++ w ++ g ++ skipn e src -> is_name k -> is_colon w ->
  e <= List.length src -> gapped g (true_col src e) -> c' = true_col src i + 4 -> extends e c' p -> extends i (true_col src i) p.
Proof using.
  intros Hi He Hs Nk Cw Le Hg -> (Hp & u & ls & kvs & N & L & I). split; [lia|].
  exists u, (Line (true_col src i) k None :: ls ++ []), [(k, YDict (dict_of kvs))]. split; [discriminate|]. split.
  - rewrite (cut_two i e p) by lia. rewrite (cut_at src i e (k ++ w ++ g)); [|rewrite <- !app_assoc; exact Hs|lia].
    rewrite <- !app_assoc. rewrite (app_assoc k). rewrite app_nil_r. eapply lo_line; [apply sp_open; assumption|exact Hg|exact L].
  - eapply it_nested; eauto; [apply dict_of_is_dict|constructor].
Qed.
Lemma extends_indent i e k w g : i <= e <= List.length src -> skipn i src = k ++ w ++ g ++ skipn e src -> is_name k -> is_colon w ->
  gapped g (true_col src e) -> extends i (true_col src i) e.
Proof using space_nl space_sp.
  intros Hi Hs Nk Cw Hg. split; [lia|]. set (c := true_col src i).
  set (b := repeat 32%N (c + 4)).
  exists (10%N :: b ++ [97%N; 58%N; 97%N]), (Line c k None :: [Line (c + 4) [97%N] (Some [97%N])] ++ []), [(k, YDict [([97%N], YStr [97%N])])].
  split; [discriminate|]. split.
  - rewrite (cut_at src i e (k ++ w ++ g)); [|rewrite <- !app_assoc; exact Hs|lia].
    replace ((k ++ w ++ g) ++ 10%N :: b ++ [97%N; 58%N; 97%N]) with ((k ++ w) ++ (g ++ 10%N :: b) ++ [97%N; 58%N; 97%N])
      by (rewrite <- !app_assoc; reflexivity).
    eapply lo_line; [apply sp_open; assumption| |apply line_a].
    destruct Hg as (a & b' & Hx & Ha & _). exists (a ++ 10%N :: b), b. split; [rewrite Hx; reflexivity|]. split.
    + apply Forall_app. split; [exact Ha|]. constructor; [exact space_nl|]. apply Forall_forall. intros x Hin.
      apply repeat_spec in Hin. subst x. exact space_sp.
    + split; [apply no_nl_spaces|]. split; [unfold b; symmetry; apply repeat_length|eauto].
  - eapply it_nested; [discriminate|apply it_leaf, it_none| |constructor].
    exact (dict_of_is_dict _ [([97%N], YStr [97%N])]).
Qed.

Definition pair_lost (i : nat) : Prop := forall m b l X, i <= List.length src ->
  dg _ ypair m i (DFail b l X) -> m = Z.of_nat (true_col src i) ->
  exists p, l = true_loc src p /\ extends i (true_col src i) p /\ (b = true -> i < p).
Definition pairs_lost (i : nat) : Prop := forall c b l X, i <= List.length src ->
  dg _ ypairs (Z.of_nat c) i (DFail b l X) -> exists p, l = true_loc src p /\ i < p /\ extends i c p.
Lemma extends_after i k p ls c : spans space src i k ls -> extends k c p -> k < p ->
  (forall ls2 kvs, items c ls2 kvs -> exists kvs', items c (ls ++ ls2) kvs') -> extends i c p.
Proof using.
  intros [Hk S] (Hp & u & ls' & kvs & N & L & I) Hlt HI. split; [lia|].
  destruct (HI _ _ I) as [kvs' I']. exists u, (ls ++ ls'), kvs'. split; [destruct ls; [exact N|discriminate]|]. split; [|exact I'].
  rewrite (cut_two i k p) by lia. rewrite <- app_assoc. apply S; [lia|exact L].
Qed.
Lemma pairs_lost_from i : (forall i', i <= i' -> pair_lost i') -> pairs_lost i.
Proof using.
  remember (List.length src - i) as n eqn:En. revert i En.
  induction n as [n IH] using lt_wf_ind. intros i En H c b l X Hi D. apply diag_fail in D.
  destruct D as [[-> [X' D]]|(kv & k & X1 & X2 & Hk & D1 & D2)].
  - apply diag_fail in D as [[D _]|[C [X2 D]]]; [discriminate|]. cbn [loc_col true_loc] in C.
    destruct (H i ltac:(lia) _ _ _ _ Hi D (eq_sym C)) as (p & -> & Ex & Hp). exists p. split; [reflexivity|]. split; [auto|].
    assert (CC : true_col src i = c) by lia. rewrite <- CC. exact Ex.
  - apply diag_peg in D1. cbn [undiag] in D1. apply peg_win in D1 as [C D1]. cbn [loc_col true_loc] in C.
    destruct (pair_sound space src i _ _ _ Hi D1 (eq_sym C)) as (_ & ls & N & S1 & T). pose proof (proj1 S1) as B1.
    destruct (IH (List.length src - k) ltac:(lia) k eq_refl (fun i' H' => H i' ltac:(lia)) c b l X2 ltac:(lia) D2) as (p & -> & Hp & Ex).
    exists p. split; [reflexivity|]. split; [lia|]. eapply extends_after; eauto.
    assert (CC : true_col src i = c) by lia. intros ls2 kvs I. exists (kv :: kvs). rewrite <- CC in *. auto.
Qed.
Lemma pair_lost_all : forall i, pair_lost i.
Proof using space_nl space_sp.
  assert (K : forall n i, List.length src - i < n -> pair_lost i).
  2:{ intros i. apply (K (S (List.length src - i))). lia. }
  induction n as [|n IH]; intros i Hn; [lia|]. intros m b l X Hi D Hm.
  apply diag_fail in D as [X0 D]. apply diag_fail in D as [[X1 D]|(k & p0 & X1 & b' & X2 & D1 & D2 & ->)].
  - apply diag_fail in D as [[X2 D]|(k & q & X2 & b' & X3 & D1 & D2 & ->)].
    + apply diag_fail in D as [-> ->]. exists i. split; [reflexivity|]. split; [apply extends_here; exact Hi|discriminate].
    + apply diag_fail in D2 as [-> ->]. apply diag_peg in D1. apply peg_win in D1. cbn [peg_won] in D1.
      apply ident_reads in D1 as (Nk & _ & Lq & Sk); [|exact Hi]. exists q. split; [reflexivity|]. split.
      * eapply (extends_leaf i q k [58%N; 97%N] k [97%N]); [lia|exact Sk|].
        exact (sp_leaf _ k [97%N] [58%N] Nk colon_c name_a).
      * cbn [orb]. intros Q. apply Nat.ltb_lt. exact Q.
  - apply diag_peg in D1. apply peg_win in D1 as (k' & w & q & D0 & D1 & ->). apply peg_win in D0, D1. cbn [peg_won] in D0, D1.
    apply ident_reads in D0 as (Nk & _ & Lq & Sk); [|exact Hi]. apply colon_reads in D1 as (Cw & _ & Lp & Sw); [|lia].
    assert (Lk : i < q).
    { destruct Nk as (a & r & -> & _). apply (f_equal (@List.length _)) in Sk. rewrite app_length, !skipn_length in Sk. cbn in Sk. lia. }
    assert (Skw : skipn i src = (k' ++ w) ++ skipn p0 src) by (rewrite Sk, Sw, <- app_assoc; reflexivity).
    assert (NL : forall e v, is_name v -> skipn p0 src = v ++ skipn e src -> e <= List.length src -> p0 < e).
    { intros e v (a & r & -> & _) Q Le. apply (f_equal (@List.length _)) in Q. rewrite app_length, !skipn_length in Q. cbn in Q. lia. }
    apply diag_fail in D2 as [[X3 D2]|(l' & X3 & b2 & l2 & X4 & D2 & D3 & <- & ->)].
    + apply diag_fail in D2 as [X5 D2]. apply diag_fail in D2 as [[X6 D2]|(x & e & X6 & b3 & X7 & D2 & D3 & _)].
      { apply diag_fail in D2 as [_ D2]. discriminate. }
      apply diag_peg in D2. apply peg_win in D2. cbn [peg_won] in D2. apply ident_reads in D2 as (Nv & _ & Le & Sv); [|lia].
      exists e. assert (Q : l = true_loc src e).
      { apply diag_fail in D3 as [[X8 D3]|(l' & X8 & b4 & l2 & X9 & D3 & D4 & _ & ->)].
        - apply diag_fail in D3 as [X9 D3]. apply diag_fail in D3 as [_ D3]. discriminate.
        - apply diag_fail in D3 as [X10 D3]. apply diag_fail in D3 as [-> _]. apply diag_fail in D4 as (_ & -> & ->). reflexivity. }
      split; [exact Q|]. split; [|intros _; pose proof (NL e x Nv Sv); lia].
      eapply (extends_leaf i e (k' ++ w ++ x) [] k' x); [lia|rewrite Skw, Sv, <- !app_assoc; reflexivity|].
      rewrite app_nil_r. apply sp_leaf; assumption.
    + assert (Q : l' = true_loc src p0).
      { apply diag_fail in D2 as [X5 D2]. apply diag_fail in D2 as [[X6 D2]|(x & e & X6 & b3 & X7 & D2 & _ & Hb)].
        - apply diag_fail in D2 as [D2 _]. exact D2.
        - exfalso. apply diag_peg in D2. apply peg_win in D2. cbn [peg_won] in D2. apply ident_reads in D2 as (Nv & _ & Le & Sv); [|lia].
          pose proof (NL e x Nv Sv ltac:(lia)) as L. apply Nat.ltb_lt in L. rewrite L, orb_true_r in Hb. discriminate. }
      apply diag_fail in D3 as [[X5 D3]|(g & e & X5 & b3 & X6 & D3 & D4 & ->)].
      * apply diag_fail in D3 as [_ ->]. exists p0. split; [exact Q|]. split; [|intros _; lia].
        eapply (extends_leaf i p0 (k' ++ w) [97%N] k' [97%N]); [lia|exact Skw|]. rewrite <- app_assoc. apply sp_leaf; auto using name_a.
      * apply diag_peg in D3. apply peg_win in D3. cbn [peg_won] in D3. apply (eol_reads space src) in D3 as (G & Le & Sg); [|lia].
        assert (L : Nat.ltb p0 e = true) by (apply Nat.ltb_lt; lia). rewrite L, orb_true_r. clear L.
        assert (Sall : skipn i src = k' ++ w ++ g ++ skipn e src) by (rewrite Sk, Sw, Sg; reflexivity).
        apply diag_fail in D4 as [[-> ->]|[C [X7 D4]]].
        { exists e. split; [reflexivity|]. split; [|intros _; lia]. eapply extends_indent; eauto. lia. }
        cbn [loc_col true_loc] in C. assert (CC : true_col src e = true_col src i + 4) by lia.
        assert (XX : exists p, l2 = true_loc src p /\ extends e (true_col src e) p).
        { apply diag_fail in D4 as [X8 D4]. apply diag_fail in D4 as [[X9 D4]|(kv & t & X9 & b5 & X10 & D4 & D5 & _)].
          - destruct (IH e ltac:(lia) _ _ _ _ ltac:(lia) D4 eq_refl) as (p & -> & Ex & _). eauto.
          - apply diag_peg in D4. destruct (pair_sound space src e _ _ _ ltac:(lia) D4 eq_refl) as (Lt & ls & N & S1 & T). pose proof (proj1 S1) as B1.
            assert (PK : pairs_lost t) by (apply pairs_lost_from; intros i' Hi'; apply IH; lia).
            destruct (PK _ _ _ _ ltac:(lia) D5) as (p & -> & Hp & Ex). exists p. split; [reflexivity|]. eapply extends_after; eauto. }
        destruct XX as (p & -> & Ex). exists p. split; [reflexivity|]. pose proof (proj1 Ex). split; [|intros _; lia].
        eapply (extends_below i e k' w g p); eauto; lia.
Qed.

Lemma yaml_lost b l X : dg _ (yaml_parser space) 0 0 (DFail b l X) ->
  exists p u v, p <= List.length src /\ l = true_loc src p /\ means space (firstn p src ++ u) v.
Proof using space_nl space_sp.
  intros D.
  assert (Doc : forall w q p u ls kvs, w = firstn q src -> Forall (fun c => space c = true) w -> q <= p <= List.length src ->
    lines_of space (firstn (p - q) (skipn q src) ++ u) (true_col src q) ls -> items 0 ls kvs ->
    exists v, means space (firstn p src ++ u) v).
  { intros w q p u ls kvs Hw Fw Hp L I. exists (YDict (dict_of kvs)), ls, kvs, (dict_of kvs).
    split; [|split; [exact I|split; [apply dict_of_is_dict|reflexivity]]].
    exists w, (firstn (p - q) (skipn q src) ++ u), (true_col src q). split; [|split; [exact Fw|split; [|exact L]]].
    - rewrite app_assoc. f_equal. pose proof (cut_two 0 q p ltac:(lia)) as Q. rewrite !Nat.sub_0_r in Q. rewrite Hw. exact Q.
    - apply (true_col_ws src w (skipn q src)); [rewrite Hw; symmetry; apply firstn_skipn|]. f_equal. rewrite Hw, firstn_length.
      unfold char in *. lia. }
  apply diag_fail in D as [[X1 D]|(v & j & X1 & b' & X2 & D1 & D2 & ->)].
  - apply diag_fail in D as [[X2 D]|(w & q & X2 & b' & X3 & D1 & D2 & ->)].
    + exists 0. exists [], (YDict []). apply diag_fail in D as [-> _]. split; [lia|]. split; [reflexivity|].
      exists [], [], []. split; [|split; [constructor|split; [exact (dict_of_is_dict _ [])|reflexivity]]].
      exists [], [], 0. split; [reflexivity|]. split; [constructor|]. split; [left; split; [auto|reflexivity]|constructor].
    + apply diag_peg in D1. apply peg_win in D1. cbn [peg_won] in D1. unfold re_yows in D1.
      destruct (span_split space (skipn 0 src)) as (L1 & L2 & L3). apply (matched_reads src) in D1 as (Y1 & Y2 & _ & Y4 & Y5); [|lia|exact L3].
      apply diag_fail in D2 as [X4 D2].
      assert (PK : pairs_lost q) by (apply pairs_lost_from; intros; apply pair_lost_all).
      destruct (PK 0 _ _ _ ltac:(lia) D2) as (p & -> & Hp & Ep & u & ls & kvs & _ & L & I).
      destruct (Doc w q p u ls kvs) as [v V]; auto; [rewrite Y2; exact Y1|rewrite Y1; exact L2|].
      exists p, u, v. split; [lia|]. auto.
  - apply diag_fail in D2 as (Hj & -> & ->). apply diag_peg in D1. apply peg_win in D1 as (w & v2 & q & D1 & D2 & ->).
    apply peg_win in D1. cbn [peg_won] in D1. unfold re_yows in D1.
    destruct (span_split space (skipn 0 src)) as (L1 & L2 & L3). apply (matched_reads src) in D1 as (Y1 & Y2 & _ & Y4 & Y5); [|lia|exact L3].
    apply peg_win in D2 as (kvs & D2 & [= <-]).
    assert (PK : pairs_ok space src q) by (apply pairs_from; intros; apply pair_sound).
    destruct (PK 0 kvs _ ltac:(lia) D2) as (ls & [B S0] & T). specialize (S0 [] [] (fun _ => eq_refl) (lo_end space _)). rewrite (app_nil_r ls) in S0.
    destruct (Doc w q j [] ls kvs) as [v V]; auto; [rewrite Y2; exact Y1|rewrite Y1; exact L2|].
    exists j, [], v. split; [lia|]. auto.
Qed.
End Err.
