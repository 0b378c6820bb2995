(** Both interpreters with stateful callbacks as one function of the mode, with one
    equation for every combinator. *)
From Verif Require Export EffectSpec StatefulProofs StatefulPeg RecProofs.

Section Run.
Context {St T : Type} {V : nat -> Type}.
Variable E : senv St T V.

Definition urun (n : nat) {A} (md : mode) (g : sgram St T V A) (s : list T) (pos : nat) (c : ctx T)
    : st St (res T A) :=
  match md with
  | Plain => r <! sfast E n g s pos c ;; slift (Ret (sres_res r))
  | Rec ins rem => sfull E n g s pos c ins rem
  end.
Definition in_row (md : mode) : Z := match md with Plain => 0%Z | Rec ins _ => ins end.

Lemma urun_plain n A (g : sgram St T V A) s pos c w :
  urun n Plain g s pos c w = (fst (sfast E n g s pos c w), omap sres_res (snd (sfast E n g s pos c w))).
Proof. cbn. unfold sbind. destruct (sfast E n g s pos c w) as [w' [r|e|]]; reflexivity. Qed.
Lemma plain_no_rec n A (g : sgram St T V A) s pos c w w' rc :
  urun n Plain g s pos c w <> (w', Ret (RRec rc)).
Proof.
  rewrite urun_plain. destruct (sfast E n g s pos c w) as [w1 [[o|e]|e|]]; cbn; congruence.
Qed.

Lemma urun_fmap n A B md (p : sgram St T V A) (f : A -> st St B) s pos c w :
  urun (S n) md (XFmap p f) s pos c w = (r <! urun n md p s pos c ;; res_fmap_st f r) w.
Proof.
  destruct md as [|ins rem]; [|reflexivity]. cbn. unfold fmap_sf, sbind.
  destruct (sfast E n p s pos c w) as [w1 [[o|e]|e|]]; cbn; try reflexivity.
  unfold ok_fmap_st, sbind. destruct (f (ok_val o) w1) as [w2 [v|e|]]; reflexivity.
Qed.

(** the part of [alt] after a failure of the first alternative *)
Definition alt_rest n {A} md (p q : sgram St T V A) la xa s pos c : st St (res T A) :=
  rb <! urun n (hush md) q s pos c ;;
  if res_con rb then slift (Ret rb)
  else
    match rb with
    | ROk ob => slift (Ret (ROk (ok_set_exp (Append xa (ok_exp ob)) ob)))
    | _ =>
        match allowance md with
        | None => slift (Ret (RErr (Err la (Append xa (res_exp rb)) false)))
        | Some _ =>
            rra <! urun n md p s pos c ;;
            rrb <! urun n md q s pos c ;;
            match rra with
            | RRec a =>
                match rrb with
                | RRec b => slift (Ret (RRec (rec_set_exp (Append xa (res_exp rb)) (join_repairs a b))))
                | _ => slift (Ret (RRec (rec_set_exp (Append xa (res_exp rb)) a)))
                end
            | _ =>
                match rrb with
                | RRec b => slift (Ret (RRec (rec_set_exp (Append xa (res_exp rb)) b)))
                | _ => slift (Ret (RErr (Err la (Append xa (res_exp rb)) false)))
                end
            end
        end
    end.
Lemma urun_alt n A md (p q : sgram St T V A) s pos c w :
  urun (S n) md (XAlt p q) s pos c w =
  (ra <! urun n (hush md) p s pos c ;;
   match ra with
   | ROk _ => slift (Ret ra)
   | RErr {| er_loc := la; er_exp := xa; er_con := ca |}
   | RRec {| rc_loc := la; rc_exp := xa; rc_con := ca |} =>
       if ca then slift (Ret ra) else alt_rest n md p q la xa s pos c
   end) w.
Proof.
  destruct md as [|ins rem]; cbn.
  - unfold alt_sf, sbind.
    destruct (sfast E n p s pos c w) as [w1 [[o|[la xa ca]]|e|]]; cbn; try reflexivity.
    destruct ca; [reflexivity|]. unfold alt_rest. cbn. unfold sbind.
    destruct (sfast E n q s pos c w1) as [w2 [[o|[lb xb cb]]|e|]]; cbn; try reflexivity.
    + destruct (ok_con o); reflexivity.
    + destruct cb; reflexivity.
  - unfold alt_sr, sbind.
    destruct (sfull E n p s pos c ins None w) as [w1 [[o|[la xa ca]|[reps mn la xa ca]]|e|]]; try reflexivity;
      (destruct ca; [reflexivity|]); unfold alt_rest; cbn; unfold sbind;
      destruct (sfull E n q s pos c ins None w1) as [w2 [[o|[lb xb cb]|[repsb mnb lb xb cb]]|e|]]; cbn;
      try reflexivity; try (destruct (ok_con o); reflexivity); destruct cb; try reflexivity;
      unfold alt_recover_sr; destruct rem; try reflexivity; unfold sbind;
      destruct (sfull E n p s pos c ins (Some z) w2) as [w3 [[o3|e3|r3]|e3|]]; try reflexivity;
      destruct (sfull E n q s pos c ins (Some z) w3) as [w4 [[o4|e4|r4]|e4|]]; reflexivity.
Qed.

Lemma renew_con md i j : renew md i j =
  match md with Plain => Plain | Rec ins rem => Rec ins (if Nat.ltb i j then Some ins else rem) end.
Proof. reflexivity. Qed.
Definition renewb (md : mode) (b : bool) : mode :=
  match md with Plain => Plain | Rec ins rem => Rec ins (if b then Some ins else rem) end.

Lemma urun_bind n A B md (p : sgram St T V A) (f : A -> St -> St * out (sgram St T V B)) s pos c w :
  urun (S n) md (XBind p f) s pos c w =
  (ra <! urun n md p s pos c ;;
   match ra with
   | RErr e => slift (Ret (RErr e))
   | RRec ra =>
       continue_st ra (in_row md)
         (fun v p c r => g <! f v ;; urun n (Rec (in_row md) (Some r)) g s p c) (fun _ v => v)
   | ROk oa =>
       g <! f (ok_val oa) ;;
       rb <! urun n (renewb md (ok_con oa)) g s (ok_pos oa) (ok_ctx oa) ;;
       slift (Ret (res_prepend (ok_exp oa) (ok_con oa) rb))
   end) w.
Proof.
  destruct md as [|ins rem]; [|reflexivity]. cbn. unfold bind_sf, sbind.
  destruct (sfast E n p s pos c w) as [w1 [[o|e]|e|]]; cbn; try reflexivity.
  destruct (f (ok_val o) w1) as [w2 [q|e|]]; try reflexivity.
  destruct (sfast E n q s (ok_pos o) (ok_ctx o) w2) as [w3 [[o2|e]|e|]]; reflexivity.
Qed.

Lemma urun_seq n A B C md (p : sgram St T V A) (q : sgram St T V B) (merge : A -> B -> C) s pos c w :
  urun (S n) md (XSeq p q merge) s pos c w =
  (ra <! urun n md p s pos c ;;
   match ra with
   | RErr e => slift (Ret (RErr e))
   | RRec ra => continue_st ra (in_row md) (fun _ p c r => urun n (Rec (in_row md) (Some r)) q s p c) merge
   | ROk oa =>
       rb <! urun n (renewb md (ok_con oa)) q s (ok_pos oa) (ok_ctx oa) ;;
       slift (rc <- res_fmap (fun vb => Ret (merge (ok_val oa) vb)) rb ;;
              Ret (res_prepend (ok_exp oa) (ok_con oa) rc))
   end) w.
Proof.
  destruct md as [|ins rem]; [|reflexivity]. cbn. unfold seq_sf, sbind.
  destruct (sfast E n p s pos c w) as [w1 [[o|e]|e|]]; cbn; try reflexivity.
  destruct (sfast E n q s (ok_pos o) (ok_ctx o) w1) as [w2 [[o2|e]|e|]]; reflexivity.
Qed.

Lemma urun_maybe n A md (p : sgram St T V A) s pos c w :
  urun (S n) md (XMaybe p) s pos c w =
  (r <! urun n (hush md) p s pos c ;;
   slift (match r with
    | ROk _ => res_fmap (fun v => Ret (Some v)) r
    | _ =>
        if res_con r then res_fmap (fun v => Ret (Some v)) r
        else Ret (ROk (Ok None pos c (res_exp r) false))
    end)) w.
Proof.
  destruct md as [|ins rem]; [|reflexivity]. cbn. unfold maybe_sf, sbind.
  destruct (sfast E n p s pos c w) as [w1 [[o|e]|e|]]; cbn; try reflexivity.
  destruct (er_con e); reflexivity.
Qed.

Lemma urun_attempt n A md (p : sgram St T V A) s pos c w :
  urun (S n) md (XAttempt p) s pos c w =
  match allowance md with
  | Some _ => urun n md p s pos c w
  | None =>
      (r <! urun n Plain p s pos c ;;
       match r with
       | RErr e => slift (Ret (RErr (Err (er_loc e) (er_exp e) false)))
       | r => slift (Ret r)
       end) w
  end.
Proof.
  destruct md as [|ins [lf|]]; [|reflexivity|]; cbn.
  - unfold attempt_sf, sbind. destruct (sfast E n p s pos c w) as [w1 [[o|e]|e|]]; reflexivity.
  - unfold attempt_sr, sbind. destruct (sfast E n p s pos c w) as [w1 [[o|e]|e|]]; reflexivity.
Qed.

Lemma urun_label n A md (p : sgram St T V A) x s pos c w :
  urun (S n) md (XLabel p x) s pos c w =
  (r <! urun n md p s pos c ;; slift (Ret (res_set_exp [x] r))) w.
Proof.
  destruct md as [|ins rem]; [|reflexivity]. cbn. unfold label_sf, sbind.
  destruct (sfast E n p s pos c w) as [w1 [[o|e]|e|]]; reflexivity.
Qed.
Lemma urun_recover n A md (p : sgram St T V A) s pos c w :
  urun (S n) md (XRecover p) s pos c w =
  (r <! urun n md p s pos c ;;
   slift (match r with
    | RRec r => Ret (RRec (Recd (map rep_set_prio (rc_reps r)) (rc_min r) (rc_loc r) (rc_exp r) (rc_con r)))
    | _ => Ret r
    end)) w.
Proof.
  destruct md as [|ins rem]; [|reflexivity]. cbn. unfold sbind.
  destruct (sfast E n p s pos c w) as [w1 [[o|e]|e|]]; reflexivity.
Qed.
Definition with_rest {A} lf (mk : list T -> nat -> st St A) (lab : A -> string) s pos (c : ctx T)
    (r : res T A) : st St (res T A) :=
  match r with
  | ROk _ => slift (Ret r)
  | _ =>
      if res_con r then slift (Ret r)
      else if Z.eqb lf 0 then slift (Ret r)
      else
        x <! mk s pos ;;
        let l := get_loc c s pos in
        let rep := make_user_insert lf x pos c l (lab x) (res_exp r) in
        match r with
        | RRec r => slift (Ret (RRec (Recd (rep :: rc_reps r) (rc_min r) l (rc_exp r) false)))
        | _ => slift (Ret (RRec (Recd [rep] None l [] false)))
        end
  end.
Lemma urun_with n A md (p : sgram St T V A) x l s pos c w :
  urun (S n) md (XRecoverWith p x l) s pos c w =
  match allowance md with
  | None => urun n md p s pos c w
  | Some lf => (r <! urun n md p s pos c ;; with_rest lf (fun _ _ => slift (Ret x)) (fun _ => l) s pos c r) w
  end.
Proof. destruct md as [|ins [lf|]]; reflexivity. Qed.
Lemma urun_withfn n A md (p : sgram St T V A) fn lab s pos c w :
  urun (S n) md (XRecoverWithFn p fn lab) s pos c w =
  match allowance md with
  | None => urun n md p s pos c w
  | Some lf => (r <! urun n md p s pos c ;; with_rest lf fn lab s pos c r) w
  end.
Proof. destruct md as [|ins [lf|]]; reflexivity. Qed.

Lemma urun_block n A md (p : sgram St T V A) s pos c w :
  urun (S n) md (XBlock p) s pos c w =
  (r <! urun n md p s pos (set_mark (update_loc c s pos) (loc_col (ctx_loc (update_loc c s pos)))) ;;
   slift (Ret (res_set_ctx (update_loc c s pos) r))) w.
Proof.
  destruct md as [|ins rem]; [|reflexivity]. cbn. unfold block_sf, sbind. cbv zeta.
  destruct (sfast E n p s pos _ w) as [w1 [[o|e]|e|]]; reflexivity.
Qed.
Lemma urun_aligned n A md (p : sgram St T V A) s pos c w :
  urun (S n) md (XAligned p) s pos c w =
  if Z.eqb (ctx_mark (update_loc c s pos)) (loc_col (ctx_loc (update_loc c s pos)))
  then urun n md p s pos (update_loc c s pos) w
  else (w, Ret (RErr (Err (ctx_loc (update_loc c s pos)) [indentation] false))).
Proof.
  destruct md as [|ins rem]; cbn.
  - unfold aligned_sf, sbind. cbv zeta. destruct (Z.eqb _ _); reflexivity.
  - unfold aligned_sr. cbv zeta. destruct (Z.eqb _ _); reflexivity.
Qed.
Lemma urun_indented n A md delta (p : sgram St T V A) s pos c w :
  urun (S n) md (XIndented delta p) s pos c w =
  if Z.eqb (ctx_mark (update_loc c s pos) + delta) (loc_col (ctx_loc (update_loc c s pos)))
  then (r <! urun n md p s pos (set_mark (update_loc c s pos) (loc_col (ctx_loc (update_loc c s pos)))) ;;
        slift (Ret (res_set_ctx (update_loc c s pos) r))) w
  else (w, Ret (RErr (Err (ctx_loc (update_loc c s pos)) [indentation] false))).
Proof.
  destruct md as [|ins rem]; cbn.
  - unfold indented_sf, sbind. cbv zeta. destruct (Z.eqb _ _); [|reflexivity]. unfold sbind.
    destruct (sfast E n p s pos _ w) as [w1 [[o|e]|e|]]; reflexivity.
  - unfold indented_sr. cbv zeta. destruct (Z.eqb _ _); reflexivity.
Qed.
Lemma urun_delay n md d s pos c w : urun (S n) md (XDelay d) s pos c w = urun n md (E d) s pos c w.
Proof. destruct md; reflexivity. Qed.

(** repetition *)
Fixpoint many_u {A} (p : nat -> ctx T -> st St (res T A)) (ins : Z) (k : nat) (con : bool) (v : list A)
    (pos : nat) (c : ctx T) : st St (res T (list A)) :=
  match k with
  | O => slift NoFuel
  | S k =>
      r <! p pos c ;;
      match r with
      | ROk o =>
          if ok_con o then many_u p ins k true (v ++ [ok_val o]) (ok_pos o) (ok_ctx o)
          else slift (Raise ManyEmpty)
      | RRec r =>
          continue_st r ins (fun _ p' c' _ => many_u p ins k false [] p' c') (fun a b => v ++ a :: b)
      | RErr e =>
          if er_con e then slift (Ret (RErr e))
          else slift (Ret (ROk (Ok v pos c (er_exp e) con)))
      end
  end.
Lemma sflat_ext {A B} (f g : A -> st St (list B)) l w :
  (forall a w, f a w = g a w) -> sflat_map f l w = sflat_map g l w.
Proof.
  intros H. revert w. induction l as [|a l IH]; intros w; cbn; [reflexivity|].
  unfold sbind. rewrite H. destruct (g a w) as [w1 [x|e|]]; try reflexivity. rewrite IH. reflexivity.
Qed.
Lemma continue_ext {A B C} (ra : recr T A) ins (F F' : A -> nat -> ctx T -> Z -> st St (res T B))
    (merge : A -> B -> C) w :
  (forall v p c r w, F v p c r w = F' v p c r w) ->
  continue_st ra ins F merge w = continue_st ra ins F' merge w.
Proof.
  intros H. unfold continue_st, sbind.
  rewrite (sflat_ext (cont_one_st ins F merge) (cont_one_st ins F' merge)); [reflexivity|].
  intros r w0. unfold cont_one_st, sbind. rewrite H. reflexivity.
Qed.
Lemma many_u_full {A} n (p : sgram St T V A) s ins k : forall con v pos c w,
  many_sr (sfull E n p) k con v s pos c ins w =
  many_u (urun n (Rec ins None) p s) ins k con v pos c w.
Proof.
  induction k as [|k IH]; intros con v pos c w; cbn [many_sr many_u]; [reflexivity|].
  unfold sbind. cbn [urun]. destruct (sfull E n p s pos c ins None w) as [w1 [[o|e|rc]|e|]]; try reflexivity.
  - destruct (ok_con o); [apply IH|reflexivity].
  - apply continue_ext. intros; apply IH.
Qed.
Lemma many_u_fast {A} n (p : sgram St T V A) s ins k : forall con v pos c w,
  (r <! many_sf (sfast E n p) k con v s pos c ;; slift (Ret (sres_res r))) w =
  many_u (urun n Plain p s) ins k con v pos c w.
Proof.
  induction k as [|k IH]; intros con v pos c w; cbn [many_sf many_u]; [reflexivity|].
  unfold sbind in *. cbn [urun]. unfold sbind.
  destruct (sfast E n p s pos c w) as [w1 [[o|e]|e|]]; cbn; try reflexivity.
  - destruct (ok_con o); [apply IH|reflexivity].
  - destruct (er_con e); reflexivity.
Qed.
Lemma urun_many n A md (p : sgram St T V A) s pos c w :
  urun (S n) md (XMany p) s pos c w =
  many_u (urun n (hush md) p s) (in_row md) n false [] pos c w.
Proof. destruct md as [|ins rem]; [apply many_u_fast|apply many_u_full]. Qed.
Lemma many_u_S A (p : nat -> ctx T -> st St (res T A)) ins k con v pos c w :
  many_u p ins (S k) con v pos c w =
  (r <! p pos c ;;
   match r with
   | ROk o =>
       if ok_con o then many_u p ins k true (v ++ [ok_val o]) (ok_pos o) (ok_ctx o)
       else slift (Raise ManyEmpty)
   | RRec r =>
       continue_st r ins (fun _ p' c' _ => many_u p ins k false [] p' c') (fun a b => v ++ a :: b)
   | RErr e =>
       if er_con e then slift (Ret (RErr e))
       else slift (Ret (ROk (Ok v pos c (er_exp e) con)))
   end) w.
Proof. reflexivity. Qed.

Lemma continue_st_addv {A B C} (rc : recr T A) ins (F : A -> nat -> ctx T -> Z -> st St (res T B))
    (merge merge' : A -> B -> list C) con v w :
  (forall a b, merge' a b = v ++ merge a b) ->
  continue_st rc ins F merge' w =
  (fst (continue_st rc ins F merge w), omap (res_addv con v) (snd (continue_st rc ins F merge w))).
Proof.
  intros Hm. unfold continue_st, sbind.
  assert (K : forall l w, sflat_map (cont_one_st ins F merge') l w =
    (fst (sflat_map (cont_one_st ins F merge) l w),
     omap (map (fun r => Repair (r_cost r) (r_prio r) (r_ins r) (r_ops r)
      (v ++ r_val r) (r_pos r) (r_ctx r) (r_exp r) (r_con r))) (snd (sflat_map (cont_one_st ins F merge) l w)))).
  { induction l as [|r l IH]; intros w0; cbn [sflat_map]; [reflexivity|]. unfold sbind.
    unfold cont_one_st at 1 3 5. unfold sbind.
    destruct (F (r_val r) (r_pos r) (r_ctx r) (r_ins r) w0) as [w1 [[o|e|c]|e|]]; try reflexivity;
      unfold slift; rewrite IH; destruct (sflat_map (cont_one_st ins F merge) l w1) as [w2 [x|e'|]]; cbn;
      try reflexivity.
    - unfold cont_ok; cbn. rewrite Hm. reflexivity.
    - rewrite map_app, map_map. do 3 f_equal.
      apply map_ext. intros r'. unfold cont_rec; cbn. rewrite Hm. reflexivity. }
  rewrite K. destruct (sflat_map (cont_one_st ins F merge) (rc_reps rc) w) as [w1 [x|e|]]; reflexivity.
Qed.
Lemma many_u_acc {A} (p : nat -> ctx T -> st St (res T A)) ins k : forall con v pos c w,
  many_u p ins k con v pos c w =
  (fst (many_u p ins k false [] pos c w), omap (res_addv con v) (snd (many_u p ins k false [] pos c w))).
Proof.
  induction k as [|k IH]; intros con v pos c w; cbn [many_u]; [reflexivity|].
  unfold sbind. destruct (p pos c w) as [w1 [[o|e|rc]|e|]]; try reflexivity.
  - destruct (ok_con o); [|reflexivity].
    rewrite (IH true (v ++ _)), (IH true ([] ++ _)). cbn [fst snd].
    destruct (many_u p ins k false [] (ok_pos o) (ok_ctx o) w1) as [w2 [[o'|e|c']|e|]]; cbn; try reflexivity.
    + rewrite <- app_assoc. cbn. rewrite orb_true_r. reflexivity.
    + rewrite map_map. cbn. do 4 f_equal. apply map_ext. intros r. rewrite <- app_assoc. reflexivity.
  - destruct (er_con e); cbn; [reflexivity|]. rewrite app_nil_r, orb_false_r. reflexivity.
  - apply continue_st_addv. intros a b. reflexivity.
Qed.

(** fuel *)
Lemma urun_lef n m A md (g : sgram St T V A) s pos c : n <= m -> slef (urun n md g s pos c) (urun m md g s pos c).
Proof.
  intros H. destruct md; cbn.
  - apply slef_bind; [apply sfast_lef; auto|intros; apply slef_refl].
  - apply sfull_lef; auto.
Qed.
Lemma urun_mono n m A md (g : sgram St T V A) s pos c w w' x :
  urun n md g s pos c w = (w', x) -> x <> NoFuel -> n <= m -> urun m md g s pos c w = (w', x).
Proof.
  intros H Hx Hm. destruct (urun_lef n m A md g s pos c Hm w) as [K|K]; rewrite H in K; [|auto].
  cbn in K. congruence.
Qed.
End Run.
