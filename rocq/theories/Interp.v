(** The parse functions with their effects left open: [M] is what running Python code
    amounts to, [lift] an outcome without effect, [bind] "and then", and [call] a call
    of a parse function (core/parser.py:9-46), [use d] reading the definition of Delay
    object number [d] (parser.py:793-801).  Every definition is the one of
    [Recovery.v], [Combinators.v], [Layout.v] or [Grammar.v] with the same name;
    [Interp.v]'s proofs in [InterpProofs.v] show that the plain model and the one with
    call depths are instances. *)
From Verif Require Export DepthFull.

(** what running code amounts to *)
Record effects : Type := Effects {
  run :> Type -> Type;
  x_lift : forall A, out A -> run A;
  x_bind : forall A B, run A -> (A -> run B) -> run B;
  x_call : forall A, run A -> run A;
  x_use : forall A, nat -> run A -> run A
}.

Section Interp.
Context (M : effects).
Notation lift := (x_lift M _).
Notation bind := (x_bind M _ _).
Notation call := (x_call M _).
Notation use := (x_use M _).
Notation "x <% m ;; k" := (bind m (fun x => k)) (at level 61, m at next level, right associativity).

(** list building loops: [flat_mapM] of [Base.v] with depths *)
Fixpoint gflat_map {A B} (f : A -> M (list B)) (l : list A) : M (list B) :=
  match l with
  | [] => lift (Ret [])
  | a :: l => x <% f a ;; y <% gflat_map f l ;; lift (Ret (x ++ y))
  end.

Context {T : Type} {V : nat -> Type}.
Definition pgen (A : Type) : Type := list T -> nat -> ctx T -> M (sres T A).

(** core/combinators.py:16-23  _fmap_fast *)
Definition fmap_gen {A B} (p : pgen A) (f : A -> out B) : pgen B :=
  fun s pos c => r <% p s pos c ;; lift (sres_fmap f r).

(** core/combinators.py:40-58  _alt_fast *)
Definition alt_gen {A} (p q : pgen A) : pgen A :=
  fun s pos c =>
    ra <% p s pos c ;;
    match ra with
    | SOk _ => lift (Ret ra)
    | SErr ea =>
        if er_con ea then lift (Ret ra)
        else
          rb <% q s pos c ;;
          if sres_con rb then lift (Ret rb)
          else
            match rb with
            | SOk ob =>
                lift (Ret (SOk (ok_set_exp (Append (er_exp ea) (ok_exp ob)) ob)))
            | SErr eb =>
                lift (Ret (SErr (Err (er_loc ea) (Append (er_exp ea) (er_exp eb)) false)))
            end
    end.

(** core/combinators.py:102-115  _bind_fast *)
Definition bind_gen {A B} (p : pgen A) (f : A -> pgen B) : pgen B :=
  fun s pos c =>
    ra <% p s pos c ;;
    match ra with
    | SErr e => lift (Ret (SErr e))
    | SOk oa =>
        rb <% f (ok_val oa) s (ok_pos oa) (ok_ctx oa) ;;
        lift (Ret (sres_prepend (ok_exp oa) (ok_con oa) rb))
    end.

(** core/combinators.py:152-169  _seq_h_fast *)
Definition seq_gen {A B C} (p : pgen A) (q : pgen B) (merge : A -> B -> C) : pgen C :=
  fun s pos c =>
    ra <% p s pos c ;;
    match ra with
    | SErr e => lift (Ret (SErr e))
    | SOk oa =>
        let va := ok_val oa in
        rb <% q s (ok_pos oa) (ok_ctx oa) ;;
        lift (rc <- sres_fmap (fun vb => Ret (merge va vb)) rb ;;
              Ret (sres_prepend (ok_exp oa) (ok_con oa) rc))
    end.

(** core/combinators.py:293-303  _maybe_fast *)
Definition maybe_gen {A} (p : pgen A) : pgen (option A) :=
  fun s pos c =>
    r <% p s pos c ;;
    match r with
    | SOk _ => lift (sres_fmap (fun v => Ret (Some v)) r)
    | SErr e =>
        if er_con e then lift (Ret (SErr e))
        else lift (Ret (SOk (Ok None pos c (er_exp e) false)))
    end.

(** core/combinators.py:327-341  the loop of _many_fast *)
Fixpoint many_gen {A} (p : pgen A) (n : nat) (consumed : bool)
    (value : list A) (s : list T) (pos : nat) (c : ctx T) : M (sres T (list A)) :=
  match n with
  | O => lift NoFuel
  | S n' =>
      r <% p s pos c ;;
      match r with
      | SOk o =>
          if ok_con o then
            many_gen p n' true (value ++ [ok_val o]) s (ok_pos o) (ok_ctx o)
          else lift (Raise ManyEmpty)
      | SErr e =>
          if er_con e then lift (Ret (SErr e))
          else lift (Ret (SOk (Ok value pos c (er_exp e) consumed)))
      end
  end.

(** core/combinators.py:379-388  _attempt_fast *)
Definition attempt_gen {A} (p : pgen A) : pgen A :=
  fun s pos c =>
    r <% p s pos c ;;
    match r with
    | SErr e => lift (Ret (SErr (Err (er_loc e) (er_exp e) false)))
    | SOk o => lift (Ret (SOk o))
    end.

(** core/combinators.py:412-420  _label_fast *)
Definition label_gen {A} (p : pgen A) (x : string) : pgen A :=
  fun s pos c => r <% p s pos c ;; lift (Ret (sres_set_exp [x] r)).

(** core/layout.py:12-19, 40-49, 70-80 *)
Definition block_gen {A} (p : pgen A) : pgen A :=
  fun s pos c =>
    let c := update_loc c s pos in
    r <% p s pos (set_mark c (loc_col (ctx_loc c))) ;;
    lift (Ret (sres_set_ctx c r)).
Definition aligned_gen {A} (p : pgen A) : pgen A :=
  fun s pos c =>
    let c := update_loc c s pos in
    if Z.eqb (ctx_mark c) (loc_col (ctx_loc c)) then p s pos c
    else lift (Ret (SErr (Err (ctx_loc c) [indentation] false))).
Definition indented_gen {A} (delta : Z) (p : pgen A) : pgen A :=
  fun s pos c =>
    let c := update_loc c s pos in
    let level := loc_col (ctx_loc c) in
    if Z.eqb (ctx_mark c + delta) level then
      r <% p s pos (set_mark c level) ;; lift (Ret (sres_set_ctx c r))
    else lift (Ret (SErr (Err (ctx_loc c) [indentation] false))).

(** [fast] of [Grammar.v]; recover, recover_with and recover_with_fn use the fast
    function of their argument (core/combinators.py:461-464, 494-497, 539-543) *)
Fixpoint gfast (E : env T V) (n : nat) {A : Type} (g : gram T V A) {struct n} : pgen A :=
  match n with
  | O => fun _ _ _ => lift NoFuel
  | S n =>
      match g in gram _ _ A return pgen A with
      | GPure x => fun s pos c => call (lift (pure_fast x s pos c))
      | GPureFn f => fun s pos c => call (lift (purefn_fast f s pos c))
      | GUnexpected l => fun s pos c => call (lift (unexpected_fast l s pos c))
      | GEof => fun s pos c => call (lift (eof_fast s pos c))
      | GSatisfy test => fun s pos c => call (lift (satisfy_fast test s pos c))
      | GSym teq x l => fun s pos c => call (lift (sym_fast teq x l s pos c))
      | GLiteral teq x l => fun s pos c => call (lift (literal_fast teq x l s pos c))
      | GRegexp m => fun s pos c => call (lift (regexp_fast m s pos c))
      | GFmap p f => fun s pos c => call (fmap_gen (gfast E n p) f s pos c)
      | GAlt p q => fun s pos c => call (alt_gen (gfast E n p) (gfast E n q) s pos c)
      | GBind p f => fun s pos c => call (bind_gen (gfast E n p) (fun v => gfast E n (f v)) s pos c)
      | GSeq p q merge => fun s pos c => call (seq_gen (gfast E n p) (gfast E n q) merge s pos c)
      | GMaybe p => fun s pos c => call (maybe_gen (gfast E n p) s pos c)
      | GMany p => fun s pos c => call (many_gen (gfast E n p) n false [] s pos c)
      | GAttempt p => fun s pos c => call (attempt_gen (gfast E n p) s pos c)
      | GLabel p x => fun s pos c => call (label_gen (gfast E n p) x s pos c)
      | GRecover p => gfast E n p
      | GRecoverWith p _ _ => gfast E n p
      | GRecoverWithFn p _ _ => gfast E n p
      | GBlock p => fun s pos c => call (block_gen (gfast E n p) s pos c)
      | GAligned p => fun s pos c => call (aligned_gen (gfast E n p) s pos c)
      | GIndented d p => fun s pos c => call (indented_gen d (gfast E n p) s pos c)
      | GDelay d => fun s pos c => call (use d (gfast E n (E d) s pos c))
      | GUndef => fun s pos c => call (lift (Raise DelayUndefined))
      end
  end.

Definition pgenr (A : Type) : Type := list T -> nat -> ctx T -> Z -> option Z -> M (res T A).

(** core/recovery.py:23-43  one iteration of the loop of continue_parse *)
Definition cont_one_gen {A B C} (ins : Z)
    (parse : A -> nat -> ctx T -> Z -> M (res T B)) (merge : A -> B -> C)
    (r : repair T A) : M (list (repair T C)) :=
  rb <% parse (r_val r) (r_pos r) (r_ctx r) (r_ins r) ;;
  match rb with
  | ROk o => lift (Ret [cont_ok ins merge r o])
  | RRec rb => lift (Ret (map (cont_rec merge r) (rc_reps rb)))
  | RErr _ => lift (Ret [])
  end.
(** core/recovery.py:18-45  continue_parse *)
Definition continue_gen {A B C} (ra : recr T A) (ins : Z)
    (parse : A -> nat -> ctx T -> Z -> M (res T B)) (merge : A -> B -> C)
    : M (res T C) :=
  reps <% gflat_map (cont_one_gen ins parse merge) (rc_reps ra) ;;
  lift (Ret (RRec (Recd reps (rc_min ra) (rc_loc ra) (rc_exp ra) (rc_con ra)))).

(** core/combinators.py:26-33  _fmap *)
Definition fmap_genr {A B} (p : pgenr A) (f : A -> out B) : pgenr B :=
  fun s pos c ins rem => r <% p s pos c ins rem ;; lift (res_fmap f r).

(** core/combinators.py:79-88  the tail of _alt *)
Definition alt_recover_gen {A} (p q : pgenr A) (la : loc) (expected : list string) : pgenr A :=
  fun s pos c ins rem =>
    match rem with
    | None => lift (Ret (RErr (Err la expected false)))
    | Some _ =>
        rra <% p s pos c ins rem ;;
        rrb <% q s pos c ins rem ;;
        match rra with
        | RRec a =>
            match rrb with
            | RRec b => lift (Ret (RRec (rec_set_exp expected (join_repairs a b))))
            | _ => lift (Ret (RRec (rec_set_exp expected a)))
            end
        | _ =>
            match rrb with
            | RRec b => lift (Ret (RRec (rec_set_exp expected b)))
            | _ => lift (Ret (RErr (Err la expected false)))
            end
        end
    end.
(** core/combinators.py:61-90  _alt *)
Definition alt_genr {A} (p q : pgenr A) : pgenr A :=
  fun s pos c ins rem =>
    ra <% p s pos c ins None ;;
    match ra with
    | ROk _ => lift (Ret ra)
    | RErr {| er_loc := la; er_exp := xa; er_con := ca |}
    | RRec {| rc_loc := la; rc_exp := xa; rc_con := ca |} =>
        if ca then lift (Ret ra)
        else
          rb <% q s pos c ins None ;;
          if res_con rb then lift (Ret rb)
          else
            let expected := Append xa (res_exp rb) in
            match rb with
            | ROk ob => lift (Ret (ROk (ok_set_exp expected ob)))
            | _ => alt_recover_gen p q la expected s pos c ins rem
            end
    end.

(** core/combinators.py:118-143  _bind *)
Definition bind_genr {A B} (p : pgenr A) (f : A -> pgenr B) : pgenr B :=
  fun s pos c ins rem =>
    ra <% p s pos c ins rem ;;
    match ra with
    | RErr e => lift (Ret (RErr e))
    | RRec ra =>
        continue_gen ra ins (fun v p c r => f v s p c ins (Some r)) (fun _ v => v)
    | ROk oa =>
        rb <% f (ok_val oa) s (ok_pos oa) (ok_ctx oa) ins (if ok_con oa then Some ins else rem) ;;
        lift (Ret (res_prepend (ok_exp oa) (ok_con oa) rb))
    end.

(** core/combinators.py:172-196  _seq_h *)
Definition seq_genr {A B C} (p : pgenr A) (q : pgenr B) (merge : A -> B -> C) : pgenr C :=
  fun s pos c ins rem =>
    ra <% p s pos c ins rem ;;
    match ra with
    | RErr e => lift (Ret (RErr e))
    | RRec ra => continue_gen ra ins (fun _ p c r => q s p c ins (Some r)) merge
    | ROk oa =>
        let va := ok_val oa in
        rb <% q s (ok_pos oa) (ok_ctx oa) ins (if ok_con oa then Some ins else rem) ;;
        lift (rc <- res_fmap (fun vb => Ret (merge va vb)) rb ;;
              Ret (res_prepend (ok_exp oa) (ok_con oa) rc))
    end.

(** core/combinators.py:306-317  _maybe *)
Definition maybe_genr {A} (p : pgenr A) : pgenr (option A) :=
  fun s pos c ins rem =>
    r <% p s pos c ins None ;;
    lift (match r with
    | ROk _ => res_fmap (fun v => Ret (Some v)) r
    | _ =>
        if res_con r then res_fmap (fun v => Ret (Some v)) r
        else Ret (ROk (Ok None pos c (res_exp r) false))
    end).

(** core/combinators.py:346-372  _many; the recursive call of the recovery
    continuation is a call of a parse function *)
Fixpoint many_genr {A} (p : pgenr A) (n : nat) (consumed : bool)
    (value : list A) (s : list T) (pos : nat) (c : ctx T) (ins : Z) : M (res T (list A)) :=
  match n with
  | O => lift NoFuel
  | S n' =>
      r <% p s pos c ins None ;;
      match r with
      | ROk o =>
          if ok_con o then
            many_genr p n' true (value ++ [ok_val o]) s (ok_pos o) (ok_ctx o) ins
          else lift (Raise ManyEmpty)
      | RRec r =>
          continue_gen r ins
            (fun _ p' c' _ => call (many_genr p n' false [] s p' c' ins))
            (fun a b => value ++ a :: b)
      | RErr e =>
          if er_con e then lift (Ret (RErr e))
          else lift (Ret (ROk (Ok value pos c (er_exp e) consumed)))
      end
  end.

(** core/combinators.py:391-405  _attempt *)
Definition attempt_genr {A} (pf : pgen A) (p : pgenr A) : pgenr A :=
  fun s pos c ins rem =>
    match rem with
    | Some _ => p s pos c ins rem
    | None =>
        r <% pf s pos c ;;
        match r with
        | SErr e => lift (Ret (RErr (Err (er_loc e) (er_exp e) false)))
        | SOk o => lift (Ret (ROk o))
        end
    end.

(** core/combinators.py:423-440  label *)
Definition label_genr {A} (p : pgenr A) (x : string) : pgenr A :=
  fun s pos c ins rem => r <% p s pos c ins rem ;; lift (Ret (res_set_exp [x] r)).

(** core/combinators.py:443-464  recover *)
Definition recover_genr {A} (p : pgenr A) : pgenr A :=
  fun s pos c ins rem =>
    r <% p s pos c ins rem ;;
    lift (match r with
    | RRec r => Ret (RRec (Recd (map rep_set_prio (rc_reps r)) (rc_min r) (rc_loc r) (rc_exp r) (rc_con r)))
    | _ => Ret r
    end).

(** core/combinators.py:467-491, 505-534 *)
Definition recover_with_genr {A} (p : pgenr A) (mk : list T -> nat -> out A)
    (lab : A -> string) : pgenr A :=
  fun s pos c ins rem =>
    match rem with
    | None => p s pos c ins None
    | Some m =>
        r <% p s pos c ins (Some m) ;;
        lift (match r with
        | ROk _ => Ret r
        | _ =>
            if res_con r then Ret r
            else if Z.eqb m 0 then Ret r
            else
              x <- mk s pos ;;
              let l := get_loc c s pos in
              let rep := make_user_insert m x pos c l (lab x) (res_exp r) in
              match r with
              | RRec r => Ret (RRec (Recd (rep :: rc_reps r) (rc_min r) l (rc_exp r) false))
              | _ => Ret (RRec (Recd [rep] None l [] false))
              end
        end)
    end.

(** core/layout.py:22-33, 52-63, 83-97 *)
Definition block_genr {A} (p : pgenr A) : pgenr A :=
  fun s pos c ins rem =>
    let c := update_loc c s pos in
    r <% p s pos (set_mark c (loc_col (ctx_loc c))) ins rem ;;
    lift (Ret (res_set_ctx c r)).
Definition aligned_genr {A} (p : pgenr A) : pgenr A :=
  fun s pos c ins rem =>
    let c := update_loc c s pos in
    if Z.eqb (ctx_mark c) (loc_col (ctx_loc c)) then p s pos c ins rem
    else lift (Ret (RErr (Err (ctx_loc c) [indentation] false))).
Definition indented_genr {A} (delta : Z) (p : pgenr A) : pgenr A :=
  fun s pos c ins rem =>
    let c := update_loc c s pos in
    let level := loc_col (ctx_loc c) in
    if Z.eqb (ctx_mark c + delta) level then
      r <% p s pos (set_mark c level) ins rem ;; lift (Ret (res_set_ctx c r))
    else lift (Ret (RErr (Err (ctx_loc c) [indentation] false))).

(** [full] of [Grammar.v] *)
Fixpoint gfull (E : env T V) (n : nat) {A : Type} (g : gram T V A) {struct n} : pgenr A :=
  match n with
  | O => fun _ _ _ _ _ => lift NoFuel
  | S n => fun s pos c ins rem => call (
      match g in gram _ _ A return pgenr A with
      | GPure x => fun s pos c ins rem => lift (pure_full x s pos c ins rem)
      | GPureFn f => fun s pos c ins rem => lift (purefn_full f s pos c ins rem)
      | GUnexpected l => fun s pos c ins rem => lift (unexpected_full l s pos c ins rem)
      | GEof => fun s pos c ins rem => lift (eof_full s pos c ins rem)
      | GSatisfy test => fun s pos c ins rem => lift (satisfy_full test s pos c ins rem)
      | GSym teq x l => fun s pos c ins rem => lift (sym_full teq x l s pos c ins rem)
      | GLiteral teq x l => fun s pos c ins rem => lift (literal_full teq x l s pos c ins rem)
      | GRegexp m => fun s pos c ins rem => lift (regexp_full m s pos c ins rem)
      | GFmap p f => fmap_genr (gfull E n p) f
      | GAlt p q => alt_genr (gfull E n p) (gfull E n q)
      | GBind p f => bind_genr (gfull E n p) (fun v => gfull E n (f v))
      | GSeq p q merge => seq_genr (gfull E n p) (gfull E n q) merge
      | GMaybe p => maybe_genr (gfull E n p)
      | GMany p => fun s pos c ins rem => many_genr (gfull E n p) n false [] s pos c ins
      | GAttempt p => attempt_genr (gfast E n p) (gfull E n p)
      | GLabel p x => label_genr (gfull E n p) x
      | GRecover p => recover_genr (gfull E n p)
      | GRecoverWith p x l => recover_with_genr (gfull E n p) (fun _ _ => Ret x) (fun _ => l)
      | GRecoverWithFn p fn lab => recover_with_genr (gfull E n p) fn lab
      | GBlock p => block_genr (gfull E n p)
      | GAligned p => aligned_genr (gfull E n p)
      | GIndented d p => indented_genr d (gfull E n p)
      | GDelay d => fun s pos c ins rem => use d (gfull E n (E d) s pos c ins rem)
      | GUndef => fun _ _ _ _ _ => lift (Raise DelayUndefined)
      end s pos c ins rem)
  end.

(** parser.py:30-55  Parser.parse *)
Definition gparse {A} (E : env T V) (n : nat) (g : gram T V A) (s : list T)
    (recover : bool) (max_insertions : Z)
    (get : loc -> list T -> nat -> loc) (fmt : loc -> string) : M (presult T A) :=
  let c := init_ctx get in
  result <% (if recover then gfull E n g s 0 c max_insertions (Some max_insertions)
             else r <% gfast E n g s 0 c ;; lift (Ret (sres_res r))) ;;
  lift (Ret (ResultWrapper result fmt)).
End Interp.
