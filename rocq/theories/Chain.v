(** The model once more with the objects of core/chain.py: where the other files
    have the list of expected values, here is the object that the code builds, a
    list or tuple or an [Append] of two such objects.  Every definition is the one
    of [Repair.v], [Result.v], [Recovery.v], [Depth.v] or [DepthFull.v] (so the
    calls are counted, too) with the same name up to a "c"; [PropsChain.v] proves
    that nothing else changes. *)
From Verif Require Export DepthFull.

(** core/chain.py:8-19  [Append]; [Leaf] is a list or a tuple *)
Inductive chain : Type :=
| Leaf (l : list string)
| CAppend (fst snd : chain).
(** core/chain.py:17-19  what [Append.__iter__] yields, and how many generators
    are suspended inside one another ("yield from") while it does *)
Fixpoint iter (x : chain) : list string :=
  match x with Leaf l => l | CAppend a b => iter a ++ iter b end.
Fixpoint height (x : chain) : nat :=
  match x with Leaf _ => 0 | CAppend a b => S (max (height a) (height b)) end.

(** core/repair.py:29-34  OpItem *)
Record copitem : Type := COpItem {
  cop_op : rop;
  cop_loc : loc;
  cop_exp : chain;
  cop_con : bool
}.

Section Chain.
Context {T : Type}.

(** core/repair.py:37-47  Repair.  [prio] is None, 0 or False (== 0). *)
Record crepair (A : Type) : Type := CRepair {
  cr_cost : nat;
  cr_prio : option nat;
  cr_ins : Z;
  cr_ops : list copitem;
  cr_val : A;
  cr_pos : nat;
  cr_ctx : ctx T;
  cr_exp : chain;
  cr_con : bool
}.

Arguments CRepair {A}. Arguments cr_cost {A}. Arguments cr_prio {A}. Arguments cr_ins {A}. Arguments cr_ops {A}.
Arguments cr_val {A}. Arguments cr_pos {A}. Arguments cr_ctx {A}. Arguments cr_exp {A}. Arguments cr_con {A}.

(** core/repair.py:73-79  make_user_insert *)
Definition cmake_user_insert {A} (rem : Z) (value : A) (pos : nat) (c : ctx T)
    (l : loc) (label : string) (expected : chain) : crepair A :=
  CRepair 1 (Some 0) (rem - 1)%Z [COpItem (Insert label) l expected false]
    value pos c (Leaf []) true.

(** core/repair.py:50-53  ops_set_expected (in-place in Python) *)
Definition cops_set_expected (ops : list copitem) (expected : chain)
    : list copitem :=
  map (fun o => if cop_con o then o
                else COpItem (cop_op o) (cop_loc o) expected (cop_con o)) ops.

(** core/repair.py:56-61  ops_prepend_expected (in-place in Python) *)
Definition cops_prepend_expected (ops : list copitem) (expected : chain)
    (consumed : bool) : list copitem :=
  map (fun o => if cop_con o then o
                else COpItem (cop_op o) (cop_loc o) (CAppend expected (cop_exp o))
                       (cop_con o || consumed)) ops.

(** core/result.py:15-26  class Ok *)
Record cokr (A : Type) : Type := COk {
  cok_val : A;
  cok_pos : nat;
  cok_ctx : ctx T;
  cok_exp : chain;
  cok_con : bool
}.
Arguments COk {A}. Arguments cok_val {A}. Arguments cok_pos {A}.
Arguments cok_ctx {A}. Arguments cok_exp {A}. Arguments cok_con {A}.

(** core/result.py:55-64  class Error *)
Record cerrr : Type := CErr {
  cer_loc : loc;
  cer_exp : chain;
  cer_con : bool
}.

(** core/result.py:90-101  class Recovered *)
Record crecr (A : Type) : Type := CRecd {
  crc_reps : list (crepair A);
  crc_min : option nat;
  crc_loc : loc;
  crc_exp : chain;
  crc_con : bool
}.
Arguments CRecd {A}. Arguments crc_reps {A}. Arguments crc_min {A}.
Arguments crc_loc {A}. Arguments crc_exp {A}. Arguments crc_con {A}.

(** core/result.py:151  SimpleResult = Union[Ok, Error] *)
Inductive csres (A : Type) : Type :=
| CSOk (o : cokr A)
| CSErr (e : cerrr).
Arguments CSOk {A}. Arguments CSErr {A}.

(** core/result.py:152  Result = Union[SimpleResult, Recovered] *)
Inductive cres (A : Type) : Type :=
| CROk (o : cokr A)
| CRErr (e : cerrr)
| CRRec (r : crecr A).
Arguments CROk {A}. Arguments CRErr {A}. Arguments CRRec {A}.

(** A SimpleResult used where a Result is expected. *)
Definition csres_res {A} (r : csres A) : cres A :=
  match r with CSOk o => CROk o | CSErr e => CRErr e end.

(** the [.consumed] attribute common to all three classes *)
Definition csres_con {A} (r : csres A) : bool :=
  match r with CSOk o => cok_con o | CSErr e => cer_con e end.
Definition cres_con {A} (r : cres A) : bool :=
  match r with CROk o => cok_con o | CRErr e => cer_con e | CRRec r => crc_con r end.

(** core/result.py:33-36  Ok.fmap; the callback may raise *)
Definition cok_fmap {A B} (f : A -> out B) (o : cokr A) : out (cokr B) :=
  v <- f (cok_val o) ;;
  Ret (COk v (cok_pos o) (cok_ctx o) (cok_exp o) (cok_con o)).

(** core/result.py:38-40  Ok.set_ctx *)
Definition cok_set_ctx {A} (c : ctx T) (o : cokr A) : cokr A :=
  COk (cok_val o) (cok_pos o) c (cok_exp o) (cok_con o).

(** core/result.py:42-45  Ok.set_expected *)
Definition cok_set_exp {A} (e : chain) (o : cokr A) : cokr A :=
  if cok_con o then o else COk (cok_val o) (cok_pos o) (cok_ctx o) e (cok_con o).

(** core/result.py:47-52  Ok.prepend_expected *)
Definition cok_prepend {A} (e : chain) (c : bool) (o : cokr A) : cokr A :=
  if cok_con o then o
  else COk (cok_val o) (cok_pos o) (cok_ctx o) (CAppend e (cok_exp o)) (cok_con o || c).

(** core/result.py:77-80  Error.set_expected *)
Definition cer_set_exp (x : chain) (e : cerrr) : cerrr :=
  if cer_con e then e else CErr (cer_loc e) x (cer_con e).

(** core/result.py:82-87  Error.prepend_expected *)
Definition cer_prepend (x : chain) (c : bool) (e : cerrr) : cerrr :=
  if cer_con e then e
  else CErr (cer_loc e) (CAppend x (cer_exp e)) (cer_con e || c).

(** core/result.py:114-117  the Repair copied by Recovered.fmap *)
Definition crep_fmap {A B} (f : A -> out B) (r : crepair A) : out (crepair B) :=
  v <- f (cr_val r) ;;
  Ret (CRepair (cr_cost r) (cr_prio r) (cr_ins r) (cr_ops r) v (cr_pos r) (cr_ctx r)
         (cr_exp r) (cr_con r)).

(** core/result.py:111-121  Recovered.fmap *)
Definition crec_fmap {A B} (f : A -> out B) (r : crecr A) : out (crecr B) :=
  reps <- mapM (crep_fmap f) (crc_reps r) ;;
  Ret (CRecd reps (crc_min r) (crc_loc r) (crc_exp r) (crc_con r)).

(** core/result.py:124-125 *)
Definition crep_set_ctx {A} (c : ctx T) (r : crepair A) : crepair A :=
  CRepair (cr_cost r) (cr_prio r) (cr_ins r) (cr_ops r) (cr_val r) (cr_pos r) c
    (cr_exp r) (cr_con r).

(** core/result.py:123-126  Recovered.set_ctx *)
Definition crec_set_ctx {A} (c : ctx T) (r : crecr A) : crecr A :=
  CRecd (map (crep_set_ctx c) (crc_reps r)) (crc_min r) (crc_loc r) (crc_exp r)
    (crc_con r).

(** core/result.py:132-134 *)
Definition crep_set_exp {A} (x : chain) (r : crepair A) : crepair A :=
  CRepair (cr_cost r) (cr_prio r) (cr_ins r) (cops_set_expected (cr_ops r) x)
    (cr_val r) (cr_pos r) (cr_ctx r)
    (if cr_con r then cr_exp r else x) (cr_con r).

(** core/result.py:128-135  Recovered.set_expected *)
Definition crec_set_exp {A} (x : chain) (r : crecr A) : crecr A :=
  CRecd (map (crep_set_exp x) (crc_reps r)) (crc_min r) (crc_loc r)
    (if crc_con r then crc_exp r else x) (crc_con r).

(** core/result.py:144-147 *)
Definition crep_prepend {A} (x : chain) (c : bool) (r : crepair A)
    : crepair A :=
  CRepair (cr_cost r) (cr_prio r) (cr_ins r) (cops_prepend_expected (cr_ops r) x c)
    (cr_val r) (cr_pos r) (cr_ctx r)
    (if cr_con r then cr_exp r else CAppend x (cr_exp r))
    (if cr_con r then cr_con r else cr_con r || c).

(** core/result.py:137-148  Recovered.prepend_expected *)
Definition crec_prepend {A} (x : chain) (c : bool) (r : crecr A) : crecr A :=
  CRecd (map (crep_prepend x c) (crc_reps r)) (crc_min r) (crc_loc r)
    (if crc_con r then crc_exp r else CAppend x (crc_exp r))
    (if crc_con r then crc_con r else crc_con r || c).

(** Dynamic dispatch of the methods on SimpleResult and Result
    (Error.fmap and Error.set_ctx return self, core/result.py:71-75). *)
Definition csres_fmap {A B} (f : A -> out B) (r : csres A) : out (csres B) :=
  match r with
  | CSOk o => o' <- cok_fmap f o ;; Ret (CSOk o')
  | CSErr e => Ret (CSErr e)
  end.
Definition csres_set_ctx {A} (c : ctx T) (r : csres A) : csres A :=
  match r with CSOk o => CSOk (cok_set_ctx c o) | CSErr e => CSErr e end.
Definition csres_set_exp {A} (x : chain) (r : csres A) : csres A :=
  match r with CSOk o => CSOk (cok_set_exp x o) | CSErr e => CSErr (cer_set_exp x e) end.
Definition csres_prepend {A} (x : chain) (c : bool) (r : csres A) : csres A :=
  match r with
  | CSOk o => CSOk (cok_prepend x c o) | CSErr e => CSErr (cer_prepend x c e)
  end.

Definition cres_fmap {A B} (f : A -> out B) (r : cres A) : out (cres B) :=
  match r with
  | CROk o => o' <- cok_fmap f o ;; Ret (CROk o')
  | CRErr e => Ret (CRErr e)
  | CRRec r => r' <- crec_fmap f r ;; Ret (CRRec r')
  end.
Definition cres_set_ctx {A} (c : ctx T) (r : cres A) : cres A :=
  match r with
  | CROk o => CROk (cok_set_ctx c o) | CRErr e => CRErr e
  | CRRec r => CRRec (crec_set_ctx c r)
  end.
Definition cres_set_exp {A} (x : chain) (r : cres A) : cres A :=
  match r with
  | CROk o => CROk (cok_set_exp x o) | CRErr e => CRErr (cer_set_exp x e)
  | CRRec r => CRRec (crec_set_exp x r)
  end.
Definition cres_prepend {A} (x : chain) (c : bool) (r : cres A) : cres A :=
  match r with
  | CROk o => CROk (cok_prepend x c o) | CRErr e => CRErr (cer_prepend x c e)
  | CRRec r => CRRec (crec_prepend x c r)
  end.

(** core/recovery.py:71-75  _join_ops: copies the operations of the first
    repair, prepends the first repair's expected values to the operations of
    the second one (in place in Python) and concatenates. *)
Definition cjoin_ops {A B} (rep : crepair A) (repb : crepair B) : list copitem :=
  map (fun i => COpItem (cop_op i) (cop_loc i) (cop_exp i) (cop_con i)) (cr_ops rep)
  ++ cops_prepend_expected (cr_ops repb) (cr_exp rep) (cr_con rep).

(** core/recovery.py:78-83  _append_expected *)
Definition cappend_expected {A} (ra : crepair A) (expected : chain)
    (consumed : bool) : chain :=
  if consumed then expected else CAppend (cr_exp ra) expected.

(** core/recovery.py:26-33  the repair built when the continuation succeeds *)
Definition ccont_ok {A B C} (ins : Z) (merge : A -> B -> C)
    (r : crepair A) (rb : cokr B) : crepair C :=
  CRepair (cr_cost r) (cr_prio r)
    (if Nat.eqb (cr_pos r) (cok_pos rb) then cr_ins r else ins)
    (cr_ops r) (merge (cr_val r) (cok_val rb)) (cok_pos rb) (cok_ctx rb)
    (cappend_expected r (cok_exp rb) (cok_con rb))
    (cr_con r || cok_con rb).

(** core/recovery.py:36-43  the repair built from a repair of the continuation *)
Definition ccont_rec {A B C} (merge : A -> B -> C)
    (r : crepair A) (rr : crepair B) : crepair C :=
  CRepair (cr_cost r + cr_cost rr) (cr_prio r) (cr_ins rr) (cjoin_ops r rr)
    (merge (cr_val r) (cr_val rr)) (cr_pos rr) (cr_ctx rr)
    (cappend_expected r (cr_exp rr) (cr_con rr))
    (cr_con r || cr_con rr).

(** core/recovery.py:48-68  join_repairs *)
Definition cjoin_repairs {A} (ra rb : crecr A) : crecr A :=
  let '(reps, min_prio) :=
    match crc_min ra with
    | Some mp =>
        (crc_reps ra ++
           filter (fun r => match cr_prio r with
                            | Some p => Nat.ltb p mp | None => false end)
             (crc_reps rb),
         match crc_min rb with
         | Some mb => if Nat.ltb mb mp then Some mb else Some mp
         | None => Some mp
         end)
    | None =>
        (crc_reps ra ++
           filter (fun r => match cr_prio r with
                            | Some _ => true | None => false end)
             (crc_reps rb),
         crc_min rb)
    end in
  if crc_con ra then CRecd reps min_prio (crc_loc ra) (crc_exp ra) true
  else if crc_con rb then CRecd reps min_prio (crc_loc rb) (crc_exp rb) true
  else CRecd reps min_prio (crc_loc ra) (CAppend (crc_exp ra) (crc_exp rb))
         (crc_con ra || crc_con rb).

Definition cres_exp {A} (r : cres A) : chain :=
  match r with CROk o => cok_exp o | CRErr e => cer_exp e | CRRec r => crc_exp r end.

(** core/combinators.py:455-457 *)
Definition crep_set_prio {A} (r : crepair A) : crepair A :=
  CRepair (cr_cost r)
    (match cr_prio r with None => Some 0 | Some p => Some p end)
    (cr_ins r) (cr_ops r) (cr_val r) (cr_pos r) (cr_ctx r) (cr_exp r) (cr_con r).

(** The primitive parsers build lists and tuples only; [leaf_sres] and [leaf_res]
    view their results as objects. *)
Definition leaf_ok {A} (o : okr T A) : cokr A := COk (ok_val o) (ok_pos o) (ok_ctx o) (Leaf (ok_exp o)) (ok_con o).
Definition leaf_er (e : errr) : cerrr := CErr (er_loc e) (Leaf (er_exp e)) (er_con e).
Definition leaf_op (o : opitem) : copitem := COpItem (op_op o) (op_loc o) (Leaf (op_exp o)) (op_con o).
Definition leaf_rep {A} (r : repair T A) : crepair A :=
  CRepair (r_cost r) (r_prio r) (r_ins r) (map leaf_op (r_ops r)) (r_val r) (r_pos r) (r_ctx r) (Leaf (r_exp r)) (r_con r).
Definition leaf_rec {A} (r : recr T A) : crecr A :=
  CRecd (map leaf_rep (rc_reps r)) (rc_min r) (rc_loc r) (Leaf (rc_exp r)) (rc_con r).
Definition leaf_sres {A} (r : sres T A) : csres A := match r with SOk o => CSOk (leaf_ok o) | SErr e => CSErr (leaf_er e) end.
Definition leaf_res {A} (r : res T A) : cres A :=
  match r with ROk o => CROk (leaf_ok o) | RErr e => CRErr (leaf_er e) | RRec r => CRRec (leaf_rec r) end.

Context {V : nat -> Type}.

Definition pchain (A : Type) : Type := list T -> nat -> ctx T -> dm (csres A).

(** core/combinators.py:16-23  _fmap_fast *)
Definition fmap_chain {A B} (p : pchain A) (f : A -> out B) : pchain B :=
  fun s pos c => r <^ p s pos c ;; dret (csres_fmap f r).

(** core/combinators.py:40-58  _alt_fast *)
Definition alt_chain {A} (p q : pchain A) : pchain A :=
  fun s pos c =>
    ra <^ p s pos c ;;
    match ra with
    | CSOk _ => dret (Ret ra)
    | CSErr ea =>
        if cer_con ea then dret (Ret ra)
        else
          rb <^ q s pos c ;;
          if csres_con rb then dret (Ret rb)
          else
            match rb with
            | CSOk ob =>
                dret (Ret (CSOk (cok_set_exp (CAppend (cer_exp ea) (cok_exp ob)) ob)))
            | CSErr eb =>
                dret (Ret (CSErr (CErr (cer_loc ea) (CAppend (cer_exp ea) (cer_exp eb)) false)))
            end
    end.

(** core/combinators.py:102-115  _bind_fast *)
Definition bind_chain {A B} (p : pchain A) (f : A -> pchain B) : pchain B :=
  fun s pos c =>
    ra <^ p s pos c ;;
    match ra with
    | CSErr e => dret (Ret (CSErr e))
    | CSOk oa =>
        rb <^ f (cok_val oa) s (cok_pos oa) (cok_ctx oa) ;;
        dret (Ret (csres_prepend (cok_exp oa) (cok_con oa) rb))
    end.

(** core/combinators.py:152-169  _seq_h_fast *)
Definition seq_chain {A B C} (p : pchain A) (q : pchain B) (merge : A -> B -> C) : pchain C :=
  fun s pos c =>
    ra <^ p s pos c ;;
    match ra with
    | CSErr e => dret (Ret (CSErr e))
    | CSOk oa =>
        let va := cok_val oa in
        rb <^ q s (cok_pos oa) (cok_ctx oa) ;;
        dret (rc <- csres_fmap (fun vb => Ret (merge va vb)) rb ;;
              Ret (csres_prepend (cok_exp oa) (cok_con oa) rc))
    end.

(** core/combinators.py:293-303  _maybe_fast *)
Definition maybe_chain {A} (p : pchain A) : pchain (option A) :=
  fun s pos c =>
    r <^ p s pos c ;;
    match r with
    | CSOk _ => dret (csres_fmap (fun v => Ret (Some v)) r)
    | CSErr e =>
        if cer_con e then dret (Ret (CSErr e))
        else dret (Ret (CSOk (COk None pos c (cer_exp e) false)))
    end.

(** core/combinators.py:327-341  the loop of _many_fast *)
Fixpoint many_chain {A} (p : pchain A) (n : nat) (consumed : bool)
    (value : list A) (s : list T) (pos : nat) (c : ctx T) : dm (csres (list A)) :=
  match n with
  | O => dret NoFuel
  | S n' =>
      r <^ p s pos c ;;
      match r with
      | CSOk o =>
          if cok_con o then
            many_chain p n' true (value ++ [cok_val o]) s (cok_pos o) (cok_ctx o)
          else dret (Raise ManyEmpty)
      | CSErr e =>
          if cer_con e then dret (Ret (CSErr e))
          else dret (Ret (CSOk (COk value pos c (cer_exp e) consumed)))
      end
  end.

(** core/combinators.py:379-388  _attempt_fast *)
Definition attempt_chain {A} (p : pchain A) : pchain A :=
  fun s pos c =>
    r <^ p s pos c ;;
    match r with
    | CSErr e => dret (Ret (CSErr (CErr (cer_loc e) (cer_exp e) false)))
    | CSOk o => dret (Ret (CSOk o))
    end.

(** core/combinators.py:412-420  _label_fast *)
Definition label_chain {A} (p : pchain A) (x : string) : pchain A :=
  fun s pos c => r <^ p s pos c ;; dret (Ret (csres_set_exp (Leaf [x]) r)).

(** core/layout.py:12-19, 40-49, 70-80 *)
Definition block_chain {A} (p : pchain A) : pchain A :=
  fun s pos c =>
    let c := update_loc c s pos in
    r <^ p s pos (set_mark c (loc_col (ctx_loc c))) ;;
    dret (Ret (csres_set_ctx c r)).
Definition aligned_chain {A} (p : pchain A) : pchain A :=
  fun s pos c =>
    let c := update_loc c s pos in
    if Z.eqb (ctx_mark c) (loc_col (ctx_loc c)) then p s pos c
    else dret (Ret (CSErr (CErr (ctx_loc c) (Leaf [indentation]) false))).
Definition indented_chain {A} (delta : Z) (p : pchain A) : pchain A :=
  fun s pos c =>
    let c := update_loc c s pos in
    let level := loc_col (ctx_loc c) in
    if Z.eqb (ctx_mark c + delta) level then
      r <^ p s pos (set_mark c level) ;; dret (Ret (csres_set_ctx c r))
    else dret (Ret (CSErr (CErr (ctx_loc c) (Leaf [indentation]) false))).

(** [fast] of [Grammar.v]; recover, recover_with and recover_with_fn use the fast
    function of their argument (core/combinators.py:461-464, 494-497, 539-543) *)
Fixpoint cfast (E : env T V) (n : nat) {A : Type} (g : gram T V A) {struct n} : pchain A :=
  match n with
  | O => fun _ _ _ => dret NoFuel
  | S n =>
      match g in gram _ _ A return pchain A with
      | GPure x => fun s pos c => nest (dret (omap leaf_sres (pure_fast x s pos c)))
      | GPureFn f => fun s pos c => nest (dret (omap leaf_sres (purefn_fast f s pos c)))
      | GUnexpected l => fun s pos c => nest (dret (omap leaf_sres (unexpected_fast l s pos c)))
      | GEof => fun s pos c => nest (dret (omap leaf_sres (eof_fast s pos c)))
      | GSatisfy test => fun s pos c => nest (dret (omap leaf_sres (satisfy_fast test s pos c)))
      | GSym teq x l => fun s pos c => nest (dret (omap leaf_sres (sym_fast teq x l s pos c)))
      | GLiteral teq x l => fun s pos c => nest (dret (omap leaf_sres (literal_fast teq x l s pos c)))
      | GRegexp m => fun s pos c => nest (dret (omap leaf_sres (regexp_fast m s pos c)))
      | GFmap p f => fun s pos c => nest (fmap_chain (cfast E n p) f s pos c)
      | GAlt p q => fun s pos c => nest (alt_chain (cfast E n p) (cfast E n q) s pos c)
      | GBind p f => fun s pos c => nest (bind_chain (cfast E n p) (fun v => cfast E n (f v)) s pos c)
      | GSeq p q merge => fun s pos c => nest (seq_chain (cfast E n p) (cfast E n q) merge s pos c)
      | GMaybe p => fun s pos c => nest (maybe_chain (cfast E n p) s pos c)
      | GMany p => fun s pos c => nest (many_chain (cfast E n p) n false [] s pos c)
      | GAttempt p => fun s pos c => nest (attempt_chain (cfast E n p) s pos c)
      | GLabel p x => fun s pos c => nest (label_chain (cfast E n p) x s pos c)
      | GRecover p => cfast E n p
      | GRecoverWith p _ _ => cfast E n p
      | GRecoverWithFn p _ _ => cfast E n p
      | GBlock p => fun s pos c => nest (block_chain (cfast E n p) s pos c)
      | GAligned p => fun s pos c => nest (aligned_chain (cfast E n p) s pos c)
      | GIndented d p => fun s pos c => nest (indented_chain d (cfast E n p) s pos c)
      | GDelay d => fun s pos c => nest (cfast E n (E d) s pos c)
      | GUndef => fun s pos c => nest (dret (Raise DelayUndefined))
      end
  end.

Definition pchainr (A : Type) : Type := list T -> nat -> ctx T -> Z -> option Z -> dm (cres A).

(** core/recovery.py:23-43  one iteration of the loop of continue_parse *)
Definition cont_one_chain {A B C} (ins : Z)
    (parse : A -> nat -> ctx T -> Z -> dm (cres B)) (merge : A -> B -> C)
    (r : crepair A) : dm (list (crepair C)) :=
  rb <^ parse (cr_val r) (cr_pos r) (cr_ctx r) (cr_ins r) ;;
  match rb with
  | CROk o => dret (Ret [ccont_ok ins merge r o])
  | CRRec rb => dret (Ret (map (ccont_rec merge r) (crc_reps rb)))
  | CRErr _ => dret (Ret [])
  end.
(** core/recovery.py:18-45  continue_parse *)
Definition continue_chain {A B C} (ra : crecr A) (ins : Z)
    (parse : A -> nat -> ctx T -> Z -> dm (cres B)) (merge : A -> B -> C)
    : dm (cres C) :=
  reps <^ dflat_map (cont_one_chain ins parse merge) (crc_reps ra) ;;
  dret (Ret (CRRec (CRecd reps (crc_min ra) (crc_loc ra) (crc_exp ra) (crc_con ra)))).

(** core/combinators.py:26-33  _fmap *)
Definition fmap_chainr {A B} (p : pchainr A) (f : A -> out B) : pchainr B :=
  fun s pos c ins rem => r <^ p s pos c ins rem ;; dret (cres_fmap f r).

(** core/combinators.py:79-88  the tail of _alt *)
Definition alt_recover_chain {A} (p q : pchainr A) (la : loc) (expected : chain) : pchainr A :=
  fun s pos c ins rem =>
    match rem with
    | None => dret (Ret (CRErr (CErr la expected false)))
    | Some _ =>
        rra <^ p s pos c ins rem ;;
        rrb <^ q s pos c ins rem ;;
        match rra with
        | CRRec a =>
            match rrb with
            | CRRec b => dret (Ret (CRRec (crec_set_exp expected (cjoin_repairs a b))))
            | _ => dret (Ret (CRRec (crec_set_exp expected a)))
            end
        | _ =>
            match rrb with
            | CRRec b => dret (Ret (CRRec (crec_set_exp expected b)))
            | _ => dret (Ret (CRErr (CErr la expected false)))
            end
        end
    end.
(** core/combinators.py:61-90  _alt *)
Definition alt_chainr {A} (p q : pchainr A) : pchainr A :=
  fun s pos c ins rem =>
    ra <^ p s pos c ins None ;;
    match ra with
    | CROk _ => dret (Ret ra)
    | CRErr {| cer_loc := la; cer_exp := xa; cer_con := ca |}
    | CRRec {| crc_loc := la; crc_exp := xa; crc_con := ca |} =>
        if ca then dret (Ret ra)
        else
          rb <^ q s pos c ins None ;;
          if cres_con rb then dret (Ret rb)
          else
            let expected := CAppend xa (cres_exp rb) in
            match rb with
            | CROk ob => dret (Ret (CROk (cok_set_exp expected ob)))
            | _ => alt_recover_chain p q la expected s pos c ins rem
            end
    end.

(** core/combinators.py:118-143  _bind *)
Definition bind_chainr {A B} (p : pchainr A) (f : A -> pchainr B) : pchainr B :=
  fun s pos c ins rem =>
    ra <^ p s pos c ins rem ;;
    match ra with
    | CRErr e => dret (Ret (CRErr e))
    | CRRec ra =>
        continue_chain ra ins (fun v p c r => f v s p c ins (Some r)) (fun _ v => v)
    | CROk oa =>
        rb <^ f (cok_val oa) s (cok_pos oa) (cok_ctx oa) ins (if cok_con oa then Some ins else rem) ;;
        dret (Ret (cres_prepend (cok_exp oa) (cok_con oa) rb))
    end.

(** core/combinators.py:172-196  _seq_h *)
Definition seq_chainr {A B C} (p : pchainr A) (q : pchainr B) (merge : A -> B -> C) : pchainr C :=
  fun s pos c ins rem =>
    ra <^ p s pos c ins rem ;;
    match ra with
    | CRErr e => dret (Ret (CRErr e))
    | CRRec ra => continue_chain ra ins (fun _ p c r => q s p c ins (Some r)) merge
    | CROk oa =>
        let va := cok_val oa in
        rb <^ q s (cok_pos oa) (cok_ctx oa) ins (if cok_con oa then Some ins else rem) ;;
        dret (rc <- cres_fmap (fun vb => Ret (merge va vb)) rb ;;
              Ret (cres_prepend (cok_exp oa) (cok_con oa) rc))
    end.

(** core/combinators.py:306-317  _maybe *)
Definition maybe_chainr {A} (p : pchainr A) : pchainr (option A) :=
  fun s pos c ins rem =>
    r <^ p s pos c ins None ;;
    dret (match r with
    | CROk _ => cres_fmap (fun v => Ret (Some v)) r
    | _ =>
        if cres_con r then cres_fmap (fun v => Ret (Some v)) r
        else Ret (CROk (COk None pos c (cres_exp r) false))
    end).

(** core/combinators.py:346-372  _many; the recursive call of the recovery
    continuation is a call of a parse function *)
Fixpoint many_chainr {A} (p : pchainr A) (n : nat) (consumed : bool)
    (value : list A) (s : list T) (pos : nat) (c : ctx T) (ins : Z) : dm (cres (list A)) :=
  match n with
  | O => dret NoFuel
  | S n' =>
      r <^ p s pos c ins None ;;
      match r with
      | CROk o =>
          if cok_con o then
            many_chainr p n' true (value ++ [cok_val o]) s (cok_pos o) (cok_ctx o) ins
          else dret (Raise ManyEmpty)
      | CRRec r =>
          continue_chain r ins
            (fun _ p' c' _ => nest (many_chainr p n' false [] s p' c' ins))
            (fun a b => value ++ a :: b)
      | CRErr e =>
          if cer_con e then dret (Ret (CRErr e))
          else dret (Ret (CROk (COk value pos c (cer_exp e) consumed)))
      end
  end.

(** core/combinators.py:391-405  _attempt *)
Definition attempt_chainr {A} (pf : pchain A) (p : pchainr A) : pchainr A :=
  fun s pos c ins rem =>
    match rem with
    | Some _ => p s pos c ins rem
    | None =>
        r <^ pf s pos c ;;
        match r with
        | CSErr e => dret (Ret (CRErr (CErr (cer_loc e) (cer_exp e) false)))
        | CSOk o => dret (Ret (CROk o))
        end
    end.

(** core/combinators.py:423-440  label *)
Definition label_chainr {A} (p : pchainr A) (x : string) : pchainr A :=
  fun s pos c ins rem => r <^ p s pos c ins rem ;; dret (Ret (cres_set_exp (Leaf [x]) r)).

(** core/combinators.py:443-464  recover *)
Definition recover_chainr {A} (p : pchainr A) : pchainr A :=
  fun s pos c ins rem =>
    r <^ p s pos c ins rem ;;
    dret (match r with
    | CRRec r => Ret (CRRec (CRecd (map crep_set_prio (crc_reps r)) (crc_min r) (crc_loc r) (crc_exp r) (crc_con r)))
    | _ => Ret r
    end).

(** core/combinators.py:467-491, 505-534 *)
Definition recover_with_chainr {A} (p : pchainr A) (mk : list T -> nat -> out A)
    (lab : A -> string) : pchainr A :=
  fun s pos c ins rem =>
    match rem with
    | None => p s pos c ins None
    | Some m =>
        r <^ p s pos c ins (Some m) ;;
        dret (match r with
        | CROk _ => Ret r
        | _ =>
            if cres_con r then Ret r
            else if Z.eqb m 0 then Ret r
            else
              x <- mk s pos ;;
              let l := get_loc c s pos in
              let rep := cmake_user_insert m x pos c l (lab x) (cres_exp r) in
              match r with
              | CRRec r => Ret (CRRec (CRecd (rep :: crc_reps r) (crc_min r) l (crc_exp r) false))
              | _ => Ret (CRRec (CRecd [rep] None l (Leaf []) false))
              end
        end)
    end.

(** core/layout.py:22-33, 52-63, 83-97 *)
Definition block_chainr {A} (p : pchainr A) : pchainr A :=
  fun s pos c ins rem =>
    let c := update_loc c s pos in
    r <^ p s pos (set_mark c (loc_col (ctx_loc c))) ins rem ;;
    dret (Ret (cres_set_ctx c r)).
Definition aligned_chainr {A} (p : pchainr A) : pchainr A :=
  fun s pos c ins rem =>
    let c := update_loc c s pos in
    if Z.eqb (ctx_mark c) (loc_col (ctx_loc c)) then p s pos c ins rem
    else dret (Ret (CRErr (CErr (ctx_loc c) (Leaf [indentation]) false))).
Definition indented_chainr {A} (delta : Z) (p : pchainr A) : pchainr A :=
  fun s pos c ins rem =>
    let c := update_loc c s pos in
    let level := loc_col (ctx_loc c) in
    if Z.eqb (ctx_mark c + delta) level then
      r <^ p s pos (set_mark c level) ins rem ;; dret (Ret (cres_set_ctx c r))
    else dret (Ret (CRErr (CErr (ctx_loc c) (Leaf [indentation]) false))).

(** [full] of [Grammar.v] *)
Fixpoint cfull (E : env T V) (n : nat) {A : Type} (g : gram T V A) {struct n} : pchainr A :=
  match n with
  | O => fun _ _ _ _ _ => dret NoFuel
  | S n => fun s pos c ins rem => nest (
      match g in gram _ _ A return pchainr A with
      | GPure x => fun s pos c ins rem => dret (omap leaf_res (pure_full x s pos c ins rem))
      | GPureFn f => fun s pos c ins rem => dret (omap leaf_res (purefn_full f s pos c ins rem))
      | GUnexpected l => fun s pos c ins rem => dret (omap leaf_res (unexpected_full l s pos c ins rem))
      | GEof => fun s pos c ins rem => dret (omap leaf_res (eof_full s pos c ins rem))
      | GSatisfy test => fun s pos c ins rem => dret (omap leaf_res (satisfy_full test s pos c ins rem))
      | GSym teq x l => fun s pos c ins rem => dret (omap leaf_res (sym_full teq x l s pos c ins rem))
      | GLiteral teq x l => fun s pos c ins rem => dret (omap leaf_res (literal_full teq x l s pos c ins rem))
      | GRegexp m => fun s pos c ins rem => dret (omap leaf_res (regexp_full m s pos c ins rem))
      | GFmap p f => fmap_chainr (cfull E n p) f
      | GAlt p q => alt_chainr (cfull E n p) (cfull E n q)
      | GBind p f => bind_chainr (cfull E n p) (fun v => cfull E n (f v))
      | GSeq p q merge => seq_chainr (cfull E n p) (cfull E n q) merge
      | GMaybe p => maybe_chainr (cfull E n p)
      | GMany p => fun s pos c ins rem => many_chainr (cfull E n p) n false [] s pos c ins
      | GAttempt p => attempt_chainr (cfast E n p) (cfull E n p)
      | GLabel p x => label_chainr (cfull E n p) x
      | GRecover p => recover_chainr (cfull E n p)
      | GRecoverWith p x l => recover_with_chainr (cfull E n p) (fun _ _ => Ret x) (fun _ => l)
      | GRecoverWithFn p fn lab => recover_with_chainr (cfull E n p) fn lab
      | GBlock p => block_chainr (cfull E n p)
      | GAligned p => aligned_chainr (cfull E n p)
      | GIndented d p => indented_chainr d (cfull E n p)
      | GDelay d => cfull E n (E d)
      | GUndef => fun _ _ _ _ _ => dret (Raise DelayUndefined)
      end s pos c ins rem)
  end.

(** types.py:101-104  ResultWrapper *)
Record cpresult (A : Type) : Type := CResultWrapper {
  cpr_result : cres A;
  cpr_fmt : loc -> string
}.
Arguments CResultWrapper {A}. Arguments cpr_result {A}. Arguments cpr_fmt {A}.

(** parser.py:30-55  Parser.parse, with the number of nested calls of parse functions *)
Definition cparse {A} (E : env T V) (n : nat) (g : gram T V A) (s : list T)
    (recover : bool) (max_insertions : Z)
    (get : loc -> list T -> nat -> loc) (fmt : loc -> string) : dm (cpresult A) :=
  let c := init_ctx get in
  result <^ (if recover then cfull E n g s 0 c max_insertions (Some max_insertions)
             else r <^ cfast E n g s 0 c ;; dret (Ret (csres_res r))) ;;
  dret (Ret (CResultWrapper result fmt)).

(** types.py:132  the key *)
Definition ckey_lt {A} (a b : crepair A) : bool :=
  let an := match cr_prio a with None => true | Some _ => false end in
  let bn := match cr_prio b with None => true | Some _ => false end in
  Nat.ltb (cr_cost a) (cr_cost b)
  || (Nat.eqb (cr_cost a) (cr_cost b)
      && (Nat.ltb (cr_pos b) (cr_pos a)
          || (Nat.eqb (cr_pos a) (cr_pos b) && (negb an && bn)))).
Fixpoint cpy_min {A} (best : crepair A) (l : list (crepair A)) : crepair A :=
  match l with
  | [] => best
  | x :: l' => cpy_min (if ckey_lt x best then x else best) l'
  end.

(** [list(expected)] (types.py:117, 126, 138): the list, and how many generators are
    suspended inside one another while it is built *)
Definition read (x : chain) : nat * list string := (height x, iter x).
(** types.py:136-141; one item is built after the other *)
Definition citem_of_op (fmt : loc -> string) (i : copitem) : nat * erroritem :=
  let x := read (cop_exp i) in
  (fst x, ErrorItem (cop_loc i) (fmt (cop_loc i)) (snd x) (Some (cop_op i))).

(** types.py:109-142  ResultWrapper.unwrap, with the largest number of generators
    suspended inside one another *)
Definition cunwrap {A} (r : cpresult A) (recover : bool) : nat * unwrapped A :=
  match cpr_result r with
  | CROk o => (0, Returns (cok_val o))
  | CRErr e =>
      let x := read (cer_exp e) in
      (fst x, Raises [ErrorItem (cer_loc e) (cpr_fmt r (cer_loc e)) (snd x) None])
  | CRRec rc =>
      match crc_reps rc with
      | [] =>
          let x := read (crc_exp rc) in
          (fst x, Raises [ErrorItem (crc_loc rc) (cpr_fmt r (crc_loc rc)) (snd x) None])
      | y :: l =>
          let rep := cpy_min y l in
          if recover then (0, Returns (cr_val rep))
          else
            let xs := map (citem_of_op (cpr_fmt r)) (cr_ops rep) in
            (fold_right max 0 (map fst xs), Raises (map snd xs))
      end
  end.
End Chain.
Arguments crepair T A : clear implicits. Arguments cokr T A : clear implicits. Arguments crecr T A : clear implicits.
Arguments csres T A : clear implicits. Arguments cres T A : clear implicits. Arguments cpresult T A : clear implicits.
Arguments pchain T A : clear implicits. Arguments pchainr T A : clear implicits.
Arguments CRepair {T A}. Arguments cr_cost {T A}. Arguments cr_prio {T A}. Arguments cr_ins {T A}. Arguments cr_ops {T A}.
Arguments cr_val {T A}. Arguments cr_pos {T A}. Arguments cr_ctx {T A}. Arguments cr_exp {T A}. Arguments cr_con {T A}.
Arguments COk {T A}. Arguments cok_val {T A}. Arguments cok_pos {T A}.
Arguments cok_ctx {T A}. Arguments cok_exp {T A}. Arguments cok_con {T A}.
Arguments CRecd {T A}. Arguments crc_reps {T A}. Arguments crc_min {T A}.
Arguments crc_loc {T A}. Arguments crc_exp {T A}. Arguments crc_con {T A}.
Arguments CSOk {T A}. Arguments CSErr {T A}. Arguments CROk {T A}. Arguments CRErr {T A}. Arguments CRRec {T A}.
Arguments CResultWrapper {T A}. Arguments cpr_result {T A}. Arguments cpr_fmt {T A}.
