(** C24 for tuples of values of different types (TupleParser.v) *)
From Coq Require Import Lia.
From Verif Require Export TupleParser PropsMany.
From Verif Require Import PropsRefactor PropsCongr Lim.

Section Tuple.
Context {T : Type} {V : nat -> Type}.
Variable E : env T V.
Notation gram := (gram T V).

Lemma in_turn_snoc s l A : forall (ps : parsers T V l) (q : gram A) i c vs j c' b,
  in_turn E s (l ++ [A]) (psnoc ps q) i c vs j c' b <->
  exists vs0 k c1 b1 v b2, in_turn E s l ps i c vs0 k c1 b1 /\ yields E q s k c1 v j c' b2 /\ vs = snoc vs0 v /\ b = b1 || b2.
Proof.
  induction l as [|B l IH]; intros ps q i c vs j c' b.
  - cbn. split.
    + intros (k & c1 & b1 & b2 & H & (-> & -> & ->) & ->). exists tt, i, c, false, (fst vs), b1.
      destruct vs as [v []]. rewrite orb_false_r. auto.
    + intros (vs0 & k & c1 & b1 & v & b2 & (-> & -> & ->) & H & -> & ->). exists j, c', b2, false. rewrite orb_false_r. auto.
  - cbn [app in_turn psnoc fst snd]. split.
    + intros (k & c1 & b1 & b2 & H & K & ->). apply IH in K as (vs0 & k' & c1' & b1' & v & b2' & K & Hq & Hv & ->).
      exists (fst vs, vs0), k', c1', (b1 || b1'), v, b2'. split; [|split; [exact Hq|]].
      * exists k, c1, b1, b1'. auto.
      * split; [|rewrite orb_assoc; reflexivity]. destruct vs as [v0 vs]. cbn in *. rewrite Hv. reflexivity.
    + intros (vs0 & k' & c1' & b1' & v & b2' & (k & c1 & b1 & b2 & H & K & ->) & Hq & -> & ->).
      exists k, c1, b1, (b2 || b2'). split; [exact H|]. split; [|rewrite orb_assoc; reflexivity].
      apply IH. eexists _, _, _, _, _, _. eauto.
Qed.
Theorem C24_tuple_yields l (t : tparser T V l) s i c vs j c' b :
  yields E (tcode t) s i c vs j c' b <-> in_turn E s l (written t) i c vs j c' b.
Proof.
  revert i c vs j c' b. induction t as [A B p q|l A t IH q]; intros i c vs j c' b; cbn [tcode written]; rewrite seq_yields.
  - cbn. split.
    + intros (x & k & c1 & b1 & v & b2 & Hx & Hv & -> & ->). exists k, c1, b1, b2. split; [exact Hx|]. split; [|reflexivity].
      exists j, c', b2, false. rewrite orb_false_r. auto.
    + intros (k & c1 & b1 & b2 & H & (k' & c1' & b1' & b2' & H' & (-> & -> & ->) & ->) & ->).
      destruct vs as [x [v []]]. eexists _, _, _, _, _, _. split; [exact H|]. split; [exact H'|]. rewrite orb_false_r. auto.
  - rewrite in_turn_snoc. split; intros (x & k & c1 & b1 & v & b2 & H & K & -> & ->); eexists _, _, _, _, _, _; (split; [apply IH; exact H|]); eauto.
Qed.
Lemma fails_in_turn_snoc s l A : forall (ps : parsers T V l) (q : gram A) i c b,
  fails_in_turn E s (l ++ [A]) (psnoc ps q) i c b <->
  fails_in_turn E s l ps i c b \/
  exists vs0 k c1 b1 b2, in_turn E s l ps i c vs0 k c1 b1 /\ fails E q s k c1 b2 /\ b = b1 || b2.
Proof.
  induction l as [|B l IH]; intros ps q i c b.
  - cbn. split.
    + intros [H|(v & k & c1 & b1 & b2 & _ & [] & _)]. right. exists tt, i, c, false, b. auto.
    + intros [[]|(vs0 & k & c1 & b1 & b2 & (-> & -> & ->) & H & ->)]. auto.
  - cbn [app in_turn fails_in_turn psnoc fst snd]. split.
    + intros [H|(v & k & c1 & b1 & b2 & H & K & ->)]; [auto|]. apply IH in K as [K|(vs0 & k' & c1' & b1' & b2' & K & Hq & ->)].
      * left. right. eexists _, _, _, _, _. eauto.
      * right. exists (v, vs0), k', c1', (b1 || b1'), b2'. split; [exists k, c1, b1, b1'; auto|]. rewrite orb_assoc. auto.
    + intros [[H|(v & k & c1 & b1 & b2 & H & K & ->)]|(vs0 & k' & c1' & b1' & b2' & (k & c1 & b1 & b2 & H & K & ->) & Hq & ->)]; [auto| |].
      * right. eexists _, _, _, _, _. split; [exact H|]. split; [apply IH; left; exact K|reflexivity].
      * right. exists (fst vs0), k, c1, b1, (b2 || b2'). split; [exact H|]. split; [|rewrite orb_assoc; reflexivity].
        apply IH. right. eexists _, _, _, _, _. eauto.
Qed.
Theorem C24_tuple_fails l (t : tparser T V l) s i c b :
  fails E (tcode t) s i c b <-> fails_in_turn E s l (written t) i c b.
Proof.
  revert i c b. induction t as [A B p q|l A t IH q]; intros i c b; cbn [tcode written]; rewrite seq_fails; unfold round_fails.
  - cbn. split.
    + intros [H|(x & k & c1 & b1 & b2 & Hx & Hv & ->)]; [auto|]. right. eexists _, _, _, _, _. eauto.
    + intros [H|(x & k & c1 & b1 & b2 & Hx & [Hv|(v & k' & c1' & b1' & b2' & _ & [] & _)] & ->)]; [auto|]. right. eexists _, _, _, _, _. eauto.
  - rewrite fails_in_turn_snoc, IH. split; (intros [H|(x & k & c1 & b1 & b2 & H & K & ->)]; [auto|]);
      right; eexists _, _, _, _, _; (split; [apply C24_tuple_yields; exact H|]); eauto.
Qed.
Lemma raises_in_turn_snoc s l A : forall (ps : parsers T V l) (q : gram A) i c x,
  raises_in_turn E s (l ++ [A]) (psnoc ps q) i c x <->
  raises_in_turn E s l ps i c x \/
  exists vs0 k c1 b1, in_turn E s l ps i c vs0 k c1 b1 /\ raises E q s k c1 x.
Proof.
  induction l as [|B l IH]; intros ps q i c x.
  - cbn. split.
    + intros [H|(v & k & c1 & b1 & _ & [])]. right. exists tt, i, c, false. auto.
    + intros [[]|(vs0 & k & c1 & b1 & (-> & -> & ->) & H)]. auto.
  - cbn [app in_turn raises_in_turn psnoc fst snd]. split.
    + intros [H|(v & k & c1 & b1 & H & K)]; [auto|]. apply IH in K as [K|(vs0 & k' & c1' & b1' & K & Hq)].
      * left. right. eexists _, _, _, _. eauto.
      * right. exists (v, vs0), k', c1', (b1 || b1'). split; [exists k, c1, b1, b1'; auto|exact Hq].
    + intros [[H|(v & k & c1 & b1 & H & K)]|(vs0 & k' & c1' & b1' & (k & c1 & b1 & b2 & H & K & ->) & Hq)]; [auto| |].
      * right. eexists _, _, _, _. split; [exact H|]. apply IH; left; exact K.
      * right. exists (fst vs0), k, c1, b1. split; [exact H|]. apply IH. right. eexists _, _, _, _. eauto.
Qed.
Theorem C24_tuple_raises l (t : tparser T V l) s i c x :
  raises E (tcode t) s i c x <-> raises_in_turn E s l (written t) i c x.
Proof.
  revert i c x. induction t as [A B p q|l A t IH q]; intros i c x; cbn [tcode written]; rewrite seq_raises.
  - cbn. split.
    + intros [H|(v & k & c1 & b1 & Hx & Hv)]; [auto|]. right. eexists _, _, _, _. eauto.
    + intros [H|(v & k & c1 & b1 & Hx & [Hv|(v' & k' & c1' & b1' & _ & [])])]; [auto|]. right. eexists _, _, _, _. eauto.
  - rewrite raises_in_turn_snoc, IH. split; (intros [H|(v & k & c1 & b1 & H & K)]; [auto|]);
      right; eexists _, _, _, _; (split; [apply C24_tuple_yields; exact H|exact K]).
Qed.
(** apply(fn) calls [fn] with one argument for each parser *)
Theorem C24_tuple_apply l R (t : tparser T V l) (fn : fn_type l R) s i c :
  (forall w j c' b, yields E (tapply t fn) s i c w j c' b <->
     exists vs, in_turn E s l (written t) i c vs j c' b /\ call_fn fn vs = Ret w) /\
  (forall b, fails E (tapply t fn) s i c b <-> fails_in_turn E s l (written t) i c b) /\
  (forall x, raises E (tapply t fn) s i c x <->
     raises_in_turn E s l (written t) i c x \/
     exists vs j c' b, in_turn E s l (written t) i c vs j c' b /\ call_fn fn vs = Raise x).
Proof.
  unfold tapply. split; [|split].
  - intros w j c' b. rewrite fmap_yields. split; intros (vs & H & K); exists vs; (split; [apply C24_tuple_yields; exact H|exact K]).
  - intros b. rewrite fmap_fails. apply C24_tuple_fails.
  - intros x. rewrite fmap_raises, C24_tuple_raises. split; (intros [H|(vs & j & c' & b & H & K)]; [auto|]);
      right; exists vs, j, c', b; (split; [apply C24_tuple_yields; exact H|exact K]).
Qed.

(** with recovery: like p + (q + (r + ...)) *)
Lemma wf_all_snoc l A : forall (ps : parsers T V l) (q : gram A), wf_all (l ++ [A]) (psnoc ps q) <-> wf_all l ps /\ wf q.
Proof.
  induction l as [|B l IH]; intros ps q; cbn [app wf_all psnoc fst snd].
  - tauto.
  - rewrite IH. tauto.
Qed.
Lemma wf_nested l : forall ps : parsers T V l, wf_all l ps -> wf (nested l ps).
Proof.
  induction l as [|B l IH]; intros ps; cbn [wf_all nested].
  - intros _. repeat split.
  - intros [H K]. split; [exact I|]. split; [exact H|apply IH; exact K].
Qed.
Lemma nested_snoc l A : forall (ps : parsers T V l) (q : gram A), wf_env E -> wf_all l ps -> wf q ->
  same_ok E (GSeq (nested l ps) q snoc) (nested (l ++ [A]) (psnoc ps q)).
Proof.
  induction l as [|B l IH]; intros ps q WE Wp Wq.
  - cbn [nested app psnoc fst snd]. apply same_weaken.
    eapply same_trans; [apply C72_pure_left|]. apply same_sym. apply C72_pure_right.
  - cbn [nested app psnoc fst snd]. destruct ps as [p ps]. destruct Wp as [Wp Wps]. cbn [fst snd] in *.
    eapply same_trans; [apply C72_seq_assoc; auto; apply wf_nested; auto|].
    eapply same_trans.
    { apply same_sym. apply same_weaken.
      apply (C72_seq_fmap E _ _ _ _ _ p (GSeq (nested l ps) q (fun b c => (b, c))) (fun v => v) (fun bc => snoc (fst bc) (snd bc)) (fun a b => (a, b))). }
    pose proof (wf_nested l ps Wps) as Wn.
    assert (Wm : wf (nested (l ++ [A]) (psnoc ps q))) by (apply wf_nested, wf_all_snoc; auto).
    apply C42_replace_components; auto.
    + unfold wf in *; cbn [gall wf_node]; auto 10.
    + unfold wf in *; cbn [gall wf_node]; auto 10.
    + apply rb_alike. constructor; apply rb_law.
      * apply same_weaken, C18_fmap_id.
      * eapply same_trans; [|apply IH; auto]. apply same_weaken, same_sym.
        apply (seq_merge E _ _ _ _ (nested l ps) q (fun b c => (b, c)) (fun bc => snoc (fst bc) (snd bc))).
Qed.
Lemma wf_tcode l (t : tparser T V l) : wf_all l (written t) -> wf (tcode t).
Proof.
  induction t as [A B p q|l A t IH q]; cbn [written tcode].
  - intros (Hp & Hq & _). split; [exact I|auto].
  - intros H. apply wf_all_snoc in H as [H Hq]. split; [exact I|]. split; [apply IH; exact H|exact Hq].
Qed.
Theorem C24_tuple_recovery l (t : tparser T V l) : wf_env E -> wf_all l (written t) ->
  same_ok E (tcode t) (nested l (written t)).
Proof.
  intros WE. induction t as [A B p q|l A t IH q]; cbn [written tcode]; intros W.
  - destruct W as (Wp & Wq & _). cbn [nested fst snd] in *.
    eapply same_trans.
    { apply same_sym. apply same_weaken.
      apply (C72_seq_fmap E _ _ _ _ _ p q (fun v => v) (fun b => (b, tt)) (fun a b => (a, b))). }
    apply C42_replace_components; auto.
    + unfold wf in *; cbn [gall wf_node]; auto 10.
    + unfold wf in *; cbn [gall wf_node]; auto 10.
    + apply rb_alike. constructor; apply rb_law; apply same_weaken; [apply C18_fmap_id|apply same_sym, C72_pure_right].
  - apply wf_all_snoc in W as [W Wq]. eapply same_trans; [|apply nested_snoc; auto].
    pose proof (wf_nested l _ W) as Wn. pose proof (wf_tcode l t W) as Wt.
    apply C42_replace_components; auto.
    + unfold wf in *; cbn [gall wf_node]; auto 10.
    + unfold wf in *; cbn [gall wf_node]; auto 10.
    + apply rb_alike. constructor; [apply rb_law, IH; auto|apply rebuilt_refl].
Qed.
End Tuple.

(** ** Cases: tests/test_tuples.py, and a tuple of values of different types *)
From Verif Require Import Examples Api.
Definition c24 (a : ascii) : ex_gram char := seql (ex_sym a) (ex_sym ",").
Definition value24 {A} (g : ex_gram A) (text : string) : option A :=
  match parse ex_E 40 g (ex_str text) false 3%Z default_get_loc default_fmt_loc with
  | Ret r => match unwrap r false with Returns v => Some v | Raises _ => None end
  | _ => None
  end.
Example C24_test_tuples :
  value24 (tcode (TThen2 _ _ (c24 "a") (ex_sym "b"))) "a,b" = Some (ex_ch "a", (ex_ch "b", tt)) /\
  value24 (tcode (TThen2 _ _ (c24 "a") (c24 "b"))) "a,b," = Some (ex_ch "a", (ex_ch "b", tt)) /\
  value24 (tcode (TThen _ _ (TThen2 _ _ (c24 "a") (c24 "b")) (ex_sym "c"))) "a,b,c" = Some (ex_ch "a", (ex_ch "b", (ex_ch "c", tt))) /\
  value24 (tcode (TThen _ _ (TThen2 _ _ (c24 "a") (c24 "b")) (c24 "c"))) "a,b,c," = Some (ex_ch "a", (ex_ch "b", (ex_ch "c", tt))) /\
  value24 (tcode (TThen _ _ (TThen _ _ (TThen2 _ _ (c24 "a") (c24 "b")) (c24 "c")) (ex_sym "d"))) "a,b,c,d" = Some (ex_ch "a", (ex_ch "b", (ex_ch "c", (ex_ch "d", tt)))) /\
  value24 (tcode (TThen _ _ (TThen _ _ (TThen2 _ _ (c24 "a") (c24 "b")) (c24 "c")) (c24 "d"))) "a,b,c,d," = Some (ex_ch "a", (ex_ch "b", (ex_ch "c", (ex_ch "d", tt)))) /\
  value24 (tcode (TThen _ _ (TThen _ _ (TThen _ _ (TThen2 _ _ (c24 "a") (c24 "b")) (c24 "c")) (c24 "d")) (ex_sym "e"))) "a,b,c,d,e" = Some (ex_ch "a", (ex_ch "b", (ex_ch "c", (ex_ch "d", (ex_ch "e", tt))))) /\
  value24 (tcode (TThen _ _ (TThen _ _ (TThen _ _ (TThen2 _ _ (c24 "a") (c24 "b")) (c24 "c")) (c24 "d")) (c24 "e"))) "a,b,c,d,e," = Some (ex_ch "a", (ex_ch "b", (ex_ch "c", (ex_ch "d", (ex_ch "e", tt))))) /\
  value24 (tcode (TThen _ _ (TThen _ _ (TThen _ _ (TThen _ _ (TThen2 _ _ (c24 "a") (c24 "b")) (c24 "c")) (c24 "d")) (c24 "e")) (ex_sym "f"))) "a,b,c,d,e,f" = Some (ex_ch "a", (ex_ch "b", (ex_ch "c", (ex_ch "d", (ex_ch "e", (ex_ch "f", tt)))))) /\
  value24 (tcode (TThen _ _ (TThen _ _ (TThen _ _ (TThen _ _ (TThen2 _ _ (c24 "a") (c24 "b")) (c24 "c")) (c24 "d")) (c24 "e")) (c24 "f"))) "a,b,c,d,e,f," = Some (ex_ch "a", (ex_ch "b", (ex_ch "c", (ex_ch "d", (ex_ch "e", (ex_ch "f", tt)))))) /\
  value24 (tcode (TThen _ _ (TThen _ _ (TThen _ _ (TThen _ _ (TThen _ _ (TThen2 _ _ (c24 "a") (c24 "b")) (c24 "c")) (c24 "d")) (c24 "e")) (c24 "f")) (ex_sym "g"))) "a,b,c,d,e,f,g" = Some (ex_ch "a", (ex_ch "b", (ex_ch "c", (ex_ch "d", (ex_ch "e", (ex_ch "f", (ex_ch "g", tt))))))) /\
  value24 (tcode (TThen _ _ (TThen _ _ (TThen _ _ (TThen _ _ (TThen _ _ (TThen2 _ _ (c24 "a") (c24 "b")) (c24 "c")) (c24 "d")) (c24 "e")) (c24 "f")) (c24 "g"))) "a,b,c,d,e,f,g," = Some (ex_ch "a", (ex_ch "b", (ex_ch "c", (ex_ch "d", (ex_ch "e", (ex_ch "f", (ex_ch "g", tt))))))) /\
  value24 (tcode (TThen _ _ (TThen _ _ (TThen _ _ (TThen _ _ (TThen _ _ (TThen _ _ (TThen2 _ _ (c24 "a") (c24 "b")) (c24 "c")) (c24 "d")) (c24 "e")) (c24 "f")) (c24 "g")) (ex_sym "h"))) "a,b,c,d,e,f,g,h" = Some (ex_ch "a", (ex_ch "b", (ex_ch "c", (ex_ch "d", (ex_ch "e", (ex_ch "f", (ex_ch "g", (ex_ch "h", tt)))))))) /\
  value24 (tcode (TThen _ _ (TThen _ _ (TThen _ _ (TThen _ _ (TThen _ _ (TThen _ _ (TThen2 _ _ (c24 "a") (c24 "b")) (c24 "c")) (c24 "d")) (c24 "e")) (c24 "f")) (c24 "g")) (c24 "h"))) "a,b,c,d,e,f,g,h," = Some (ex_ch "a", (ex_ch "b", (ex_ch "c", (ex_ch "d", (ex_ch "e", (ex_ch "f", (ex_ch "g", (ex_ch "h", tt)))))))) /\
  value24 (tapply (R := (char * char)%type) (TThen2 _ _ (ex_sym "a") (ex_sym "b")) (fun x0 x1 => Ret (x1, x0))) "ab" = Some (ex_ch "b", ex_ch "a") /\
  value24 (tapply (R := (char * char * char)%type) (TThen _ _ (TThen2 _ _ (ex_sym "a") (ex_sym "b")) (ex_sym "c")) (fun x0 x1 x2 => Ret (x2, x1, x0))) "abc" = Some (ex_ch "c", ex_ch "b", ex_ch "a") /\
  value24 (tapply (R := (char * char * char * char)%type) (TThen _ _ (TThen _ _ (TThen2 _ _ (ex_sym "a") (ex_sym "b")) (ex_sym "c")) (ex_sym "d")) (fun x0 x1 x2 x3 => Ret (x3, x2, x1, x0))) "abcd" = Some (ex_ch "d", ex_ch "c", ex_ch "b", ex_ch "a") /\
  value24 (tapply (R := (char * char * char * char * char)%type) (TThen _ _ (TThen _ _ (TThen _ _ (TThen2 _ _ (ex_sym "a") (ex_sym "b")) (ex_sym "c")) (ex_sym "d")) (ex_sym "e")) (fun x0 x1 x2 x3 x4 => Ret (x4, x3, x2, x1, x0))) "abcde" = Some (ex_ch "e", ex_ch "d", ex_ch "c", ex_ch "b", ex_ch "a") /\
  value24 (tapply (R := (char * char * char * char * char * char)%type) (TThen _ _ (TThen _ _ (TThen _ _ (TThen _ _ (TThen2 _ _ (ex_sym "a") (ex_sym "b")) (ex_sym "c")) (ex_sym "d")) (ex_sym "e")) (ex_sym "f")) (fun x0 x1 x2 x3 x4 x5 => Ret (x5, x4, x3, x2, x1, x0))) "abcdef" = Some (ex_ch "f", ex_ch "e", ex_ch "d", ex_ch "c", ex_ch "b", ex_ch "a") /\
  value24 (tapply (R := (char * char * char * char * char * char * char)%type) (TThen _ _ (TThen _ _ (TThen _ _ (TThen _ _ (TThen _ _ (TThen2 _ _ (ex_sym "a") (ex_sym "b")) (ex_sym "c")) (ex_sym "d")) (ex_sym "e")) (ex_sym "f")) (ex_sym "g")) (fun x0 x1 x2 x3 x4 x5 x6 => Ret (x6, x5, x4, x3, x2, x1, x0))) "abcdefg" = Some (ex_ch "g", ex_ch "f", ex_ch "e", ex_ch "d", ex_ch "c", ex_ch "b", ex_ch "a") /\
  value24 (tapply (R := (char * char * char * char * char * char * char * char)%type) (TThen _ _ (TThen _ _ (TThen _ _ (TThen _ _ (TThen _ _ (TThen _ _ (TThen2 _ _ (ex_sym "a") (ex_sym "b")) (ex_sym "c")) (ex_sym "d")) (ex_sym "e")) (ex_sym "f")) (ex_sym "g")) (ex_sym "h")) (fun x0 x1 x2 x3 x4 x5 x6 x7 => Ret (x7, x6, x5, x4, x3, x2, x1, x0))) "abcdefgh" = Some (ex_ch "h", ex_ch "g", ex_ch "f", ex_ch "e", ex_ch "d", ex_ch "c", ex_ch "b", ex_ch "a").
Proof. repeat split; vm_compute; reflexivity. Qed.
(** digit.then(sign.maybe()).then(letter.many()).apply(...) on "7-aa" and "7b" *)
Definition c24_t : tparser char ex_V [Z : Type; option char : Type; list char : Type] :=
  TThen _ _ (TThen2 _ _ ex_digit (GMaybe (ex_sym "-"))) (GMany (ex_sym "a")).
Example C24_tuple_case :
  value24 (tcode c24_t) "7-aa" = Some (7%Z, (Some (ex_ch "-"), (ex_str "aa", tt))) /\
  value24 (tapply c24_t (fun d sign l => Ret (match sign with Some _ => (- d)%Z | None => d end, List.length l))) "7-aa" = Some ((-7)%Z, 2) /\
  value24 (tcode c24_t) "7b" = Some (7%Z, (None, ([], tt))) /\
  wf_env ex_E /\ wf_all _ (written c24_t) /\
  in_turn ex_E (ex_str "7-aa") _ (written c24_t) 0 (init_ctx default_get_loc) (7%Z, (Some (ex_ch "-"), (ex_str "aa", tt)))
    4 (init_ctx default_get_loc) true.
Proof.
  split; [vm_compute; reflexivity|]. split; [vm_compute; reflexivity|]. split; [vm_compute; reflexivity|].
  split; [intros d; solve_gall|]. split; [solve_gall|].
  apply C24_tuple_yields. exists 20. eexists. split; [vm_compute; reflexivity|]. auto.
Qed.
Print Assumptions C24_tuple_yields.
Print Assumptions C24_tuple_fails.
Print Assumptions C24_tuple_raises.
Print Assumptions C24_tuple_apply.
Print Assumptions C24_tuple_recovery.
