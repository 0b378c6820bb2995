(** The model with callbacks that have side effects.  In [Grammar.v] a user callback
    ([pure_fn], [satisfy], [fmap], [bind], [recover_with_fn]) is a function that may
    raise; here it may also read and change a state [St] that all callbacks of a
    parser share (a symbol table, a counter, a list of log entries).  Nothing in the
    library saves or restores that state.  Every definition below is the one of
    [Prims.v], [Recovery.v], [Result.v], [Combinators.v], [Layout.v], [Grammar.v] or
    [Api.v] with the same name, run in the order in which the code runs its calls;
    [C59_pure_callbacks] in [PropsStateful.v] proves that it is the same function when
    the callbacks have no effects.  Token equality, regular expressions, merge functions
    and location functions stay free of effects. *)
From Verif Require Export Grammar Api.

(** a computation that changes the state and then returns, raises or runs out of fuel;
    the changes made before an exception stay *)
Definition st (St A : Type) : Type := St -> St * out A.
Definition slift {St A} (m : out A) : st St A := fun w => (w, m).
Definition sbind {St A B} (m : st St A) (f : A -> st St B) : st St B :=
  fun w => match m w with
           | (w', Ret a) => f a w'
           | (w', Raise e) => (w', Raise e)
           | (w', NoFuel) => (w', NoFuel)
           end.
Notation "x <! m ;; k" := (sbind m (fun x => k)) (at level 61, m at next level, right associativity).

(** [mapM] and [flat_mapM] of [Base.v] *)
Fixpoint smap {St A B} (f : A -> st St B) (l : list A) : st St (list B) :=
  match l with
  | [] => slift (Ret [])
  | a :: l => x <! f a ;; y <! smap f l ;; slift (Ret (x :: y))
  end.
Fixpoint sflat_map {St A B} (f : A -> st St (list B)) (l : list A) : st St (list B) :=
  match l with
  | [] => slift (Ret [])
  | a :: l => x <! f a ;; y <! sflat_map f l ;; slift (Ret (x ++ y))
  end.

Section Stateful.
Context {St T : Type}.
Definition psf (A : Type) : Type := list T -> nat -> ctx T -> st St (sres T A).
Definition psr (A : Type) : Type := list T -> nat -> ctx T -> Z -> option Z -> st St (res T A).

(** core/result.py:33-36, 111-121  fmap of a result *)
Definition ok_fmap_st {A B} (f : A -> st St B) (o : okr T A) : st St (okr T B) :=
  v <! f (ok_val o) ;;
  slift (Ret (Ok v (ok_pos o) (ok_ctx o) (ok_exp o) (ok_con o))).
Definition rep_fmap_st {A B} (f : A -> st St B) (r : repair T A) : st St (repair T B) :=
  v <! f (r_val r) ;;
  slift (Ret (Repair (r_cost r) (r_prio r) (r_ins r) (r_ops r) v (r_pos r) (r_ctx r)
         (r_exp r) (r_con r))).
Definition rec_fmap_st {A B} (f : A -> st St B) (r : recr T A) : st St (recr T B) :=
  reps <! smap (rep_fmap_st f) (rc_reps r) ;;
  slift (Ret (Recd reps (rc_min r) (rc_loc r) (rc_exp r) (rc_con r))).
Definition sres_fmap_st {A B} (f : A -> st St B) (r : sres T A) : st St (sres T B) :=
  match r with
  | SOk o => o' <! ok_fmap_st f o ;; slift (Ret (SOk o'))
  | SErr e => slift (Ret (SErr e))
  end.
Definition res_fmap_st {A B} (f : A -> st St B) (r : res T A) : st St (res T B) :=
  match r with
  | ROk o => o' <! ok_fmap_st f o ;; slift (Ret (ROk o'))
  | RErr e => slift (Ret (RErr e))
  | RRec r => r' <! rec_fmap_st f r ;; slift (Ret (RRec r'))
  end.

(** core/primitive.py:26-38  PureFn *)
Definition purefn_sf {A} (f : unit -> st St A) : psf A :=
  fun s pos c => x <! f tt ;; slift (Ret (SOk (Ok x pos c [] false))).
Definition purefn_sr {A} (f : unit -> st St A) : psr A :=
  fun s pos c ins rem => x <! f tt ;; slift (Ret (ROk (Ok x pos c [] false))).

(** core/sequence.py:51-53, 64-66, 73-74 *)
Definition probe_tok_st (test : T -> st St bool) (s : list T) (pos : nat) : st St (option T) :=
  match nth_error s pos with
  | Some t => b <! test t ;; slift (Ret (if b then Some t else None))
  | None => slift (Ret None)
  end.
(** core/sequence.py:71-83  the loop of _satisfy *)
Fixpoint skip_loop_st {X} (probe : nat -> st St (option X)) (k cur : nat)
    : st St (option (nat * X)) :=
  match k with
  | O => slift (Ret None)
  | S k' =>
      r <! probe cur ;;
      match r with
      | Some x => slift (Ret (Some (cur, x)))
      | None => skip_loop_st probe k' (S cur)
      end
  end.
(** core/sequence.py:47-57  _satisfy_fast *)
Definition satisfy_sf (test : T -> st St bool) : psf T :=
  fun s pos c =>
    r <! probe_tok_st test s pos ;;
    match r with
    | Some t => slift (Ret (SOk (Ok t (pos + 1) c [] true)))
    | None => slift (Ret (SErr (Err (get_loc c s pos) [] false)))
    end.
(** core/sequence.py:60-86  _satisfy *)
Definition satisfy_sr (test : T -> st St bool) : psr T :=
  fun s pos c ins rem =>
    r <! probe_tok_st test s pos ;;
    match r with
    | Some t => slift (Ret (ROk (Ok t (pos + 1) c [] true)))
    | None =>
        match rem with
        | None => slift (Ret (RErr (Err (get_loc c s pos) [] false)))
        | Some _ =>
            let l := get_loc c s pos in
            f <! skip_loop_st (probe_tok_st test s) (List.length s - S pos) (S pos) ;;
            match f with
            | Some (cur, t) =>
                slift (Ret (RRec (Recd
                  [make_skip ins t (cur + 1) (update_loc c s (cur + 1)) l
                     (cur - pos) []]
                  (Some (cur - pos)) l [] false)))
            | None => slift (Ret (RErr (Err l [] false)))
            end
        end
    end.

(** core/recovery.py:18-45  continue_parse *)
Definition cont_one_st {A B C} (ins : Z)
    (parse : A -> nat -> ctx T -> Z -> st St (res T B)) (merge : A -> B -> C)
    (r : repair T A) : st St (list (repair T C)) :=
  rb <! parse (r_val r) (r_pos r) (r_ctx r) (r_ins r) ;;
  match rb with
  | ROk o => slift (Ret [cont_ok ins merge r o])
  | RRec rb => slift (Ret (map (cont_rec merge r) (rc_reps rb)))
  | RErr _ => slift (Ret [])
  end.
Definition continue_st {A B C} (ra : recr T A) (ins : Z)
    (parse : A -> nat -> ctx T -> Z -> st St (res T B)) (merge : A -> B -> C)
    : st St (res T C) :=
  reps <! sflat_map (cont_one_st ins parse merge) (rc_reps ra) ;;
  slift (Ret (RRec (Recd reps (rc_min ra) (rc_loc ra) (rc_exp ra) (rc_con ra)))).

(** core/combinators.py:16-33  fmap *)
Definition fmap_sf {A B} (p : psf A) (f : A -> st St B) : psf B :=
  fun s pos c => r <! p s pos c ;; sres_fmap_st f r.
Definition fmap_sr {A B} (p : psr A) (f : A -> st St B) : psr B :=
  fun s pos c ins rem => r <! p s pos c ins rem ;; res_fmap_st f r.

(** core/combinators.py:40-58  _alt_fast *)
Definition alt_sf {A} (p q : psf A) : psf A :=
  fun s pos c =>
    ra <! p s pos c ;;
    match ra with
    | SOk _ => slift (Ret ra)
    | SErr ea =>
        if er_con ea then slift (Ret ra)
        else
          rb <! q s pos c ;;
          if sres_con rb then slift (Ret rb)
          else
            match rb with
            | SOk ob =>
                slift (Ret (SOk (ok_set_exp (Append (er_exp ea) (ok_exp ob)) ob)))
            | SErr eb =>
                slift (Ret (SErr (Err (er_loc ea) (Append (er_exp ea) (er_exp eb)) false)))
            end
    end.
(** core/combinators.py:79-88  the tail of _alt *)
Definition alt_recover_sr {A} (p q : psr A) (la : loc) (expected : list string) : psr A :=
  fun s pos c ins rem =>
    match rem with
    | None => slift (Ret (RErr (Err la expected false)))
    | Some _ =>
        rra <! p s pos c ins rem ;;
        rrb <! q s pos c ins rem ;;
        match rra with
        | RRec a =>
            match rrb with
            | RRec b => slift (Ret (RRec (rec_set_exp expected (join_repairs a b))))
            | _ => slift (Ret (RRec (rec_set_exp expected a)))
            end
        | _ =>
            match rrb with
            | RRec b => slift (Ret (RRec (rec_set_exp expected b)))
            | _ => slift (Ret (RErr (Err la expected false)))
            end
        end
    end.
(** core/combinators.py:61-90  _alt *)
Definition alt_sr {A} (p q : psr A) : psr A :=
  fun s pos c ins rem =>
    ra <! p s pos c ins None ;;
    match ra with
    | ROk _ => slift (Ret ra)
    | RErr {| er_loc := la; er_exp := xa; er_con := ca |}
    | RRec {| rc_loc := la; rc_exp := xa; rc_con := ca |} =>
        if ca then slift (Ret ra)
        else
          rb <! q s pos c ins None ;;
          if res_con rb then slift (Ret rb)
          else
            let expected := Append xa (res_exp rb) in
            match rb with
            | ROk ob => slift (Ret (ROk (ok_set_exp expected ob)))
            | _ => alt_recover_sr p q la expected s pos c ins rem
            end
    end.

(** core/combinators.py:102-115  _bind_fast; [run] gives the functions of the parser
    that the callback returned *)
Definition bind_sf {A B G} (p : psf A) (f : A -> st St G) (run : G -> psf B) : psf B :=
  fun s pos c =>
    ra <! p s pos c ;;
    match ra with
    | SErr e => slift (Ret (SErr e))
    | SOk oa =>
        g <! f (ok_val oa) ;;
        rb <! run g s (ok_pos oa) (ok_ctx oa) ;;
        slift (Ret (sres_prepend (ok_exp oa) (ok_con oa) rb))
    end.
(** core/combinators.py:118-143  _bind *)
Definition bind_sr {A B G} (p : psr A) (f : A -> st St G) (run : G -> psr B) : psr B :=
  fun s pos c ins rem =>
    ra <! p s pos c ins rem ;;
    match ra with
    | RErr e => slift (Ret (RErr e))
    | RRec ra =>
        continue_st ra ins (fun v p c r => g <! f v ;; run g s p c ins (Some r)) (fun _ v => v)
    | ROk oa =>
        g <! f (ok_val oa) ;;
        rb <! run g s (ok_pos oa) (ok_ctx oa) ins (if ok_con oa then Some ins else rem) ;;
        slift (Ret (res_prepend (ok_exp oa) (ok_con oa) rb))
    end.

(** core/combinators.py:152-169  _seq_h_fast *)
Definition seq_sf {A B C} (p : psf A) (q : psf B) (merge : A -> B -> C) : psf C :=
  fun s pos c =>
    ra <! p s pos c ;;
    match ra with
    | SErr e => slift (Ret (SErr e))
    | SOk oa =>
        let va := ok_val oa in
        rb <! q s (ok_pos oa) (ok_ctx oa) ;;
        slift (rc <- sres_fmap (fun vb => Ret (merge va vb)) rb ;;
              Ret (sres_prepend (ok_exp oa) (ok_con oa) rc))
    end.

(** core/combinators.py:293-303  _maybe_fast *)
Definition maybe_sf {A} (p : psf A) : psf (option A) :=
  fun s pos c =>
    r <! p s pos c ;;
    match r with
    | SOk _ => slift (sres_fmap (fun v => Ret (Some v)) r)
    | SErr e =>
        if er_con e then slift (Ret (SErr e))
        else slift (Ret (SOk (Ok None pos c (er_exp e) false)))
    end.

(** core/combinators.py:327-341  the loop of _many_fast *)
Fixpoint many_sf {A} (p : psf A) (n : nat) (consumed : bool)
    (value : list A) (s : list T) (pos : nat) (c : ctx T) : st St (sres T (list A)) :=
  match n with
  | O => slift NoFuel
  | S n' =>
      r <! p s pos c ;;
      match r with
      | SOk o =>
          if ok_con o then
            many_sf p n' true (value ++ [ok_val o]) s (ok_pos o) (ok_ctx o)
          else slift (Raise ManyEmpty)
      | SErr e =>
          if er_con e then slift (Ret (SErr e))
          else slift (Ret (SOk (Ok value pos c (er_exp e) consumed)))
      end
  end.

(** core/combinators.py:379-388  _attempt_fast *)
Definition attempt_sf {A} (p : psf A) : psf A :=
  fun s pos c =>
    r <! p s pos c ;;
    match r with
    | SErr e => slift (Ret (SErr (Err (er_loc e) (er_exp e) false)))
    | SOk o => slift (Ret (SOk o))
    end.

(** core/combinators.py:412-420  _label_fast *)
Definition label_sf {A} (p : psf A) (x : string) : psf A :=
  fun s pos c => r <! p s pos c ;; slift (Ret (sres_set_exp [x] r)).

(** core/layout.py:12-19, 40-49, 70-80 *)
Definition block_sf {A} (p : psf A) : psf A :=
  fun s pos c =>
    let c := update_loc c s pos in
    r <! p s pos (set_mark c (loc_col (ctx_loc c))) ;;
    slift (Ret (sres_set_ctx c r)).
Definition aligned_sf {A} (p : psf A) : psf A :=
  fun s pos c =>
    let c := update_loc c s pos in
    if Z.eqb (ctx_mark c) (loc_col (ctx_loc c)) then p s pos c
    else slift (Ret (SErr (Err (ctx_loc c) [indentation] false))).
Definition indented_sf {A} (delta : Z) (p : psf A) : psf A :=
  fun s pos c =>
    let c := update_loc c s pos in
    let level := loc_col (ctx_loc c) in
    if Z.eqb (ctx_mark c + delta) level then
      r <! p s pos (set_mark c level) ;; slift (Ret (sres_set_ctx c r))
    else slift (Ret (SErr (Err (ctx_loc c) [indentation] false))).

(** core/combinators.py:172-196  _seq_h *)
Definition seq_sr {A B C} (p : psr A) (q : psr B) (merge : A -> B -> C) : psr C :=
  fun s pos c ins rem =>
    ra <! p s pos c ins rem ;;
    match ra with
    | RErr e => slift (Ret (RErr e))
    | RRec ra => continue_st ra ins (fun _ p c r => q s p c ins (Some r)) merge
    | ROk oa =>
        let va := ok_val oa in
        rb <! q s (ok_pos oa) (ok_ctx oa) ins (if ok_con oa then Some ins else rem) ;;
        slift (rc <- res_fmap (fun vb => Ret (merge va vb)) rb ;;
              Ret (res_prepend (ok_exp oa) (ok_con oa) rc))
    end.

(** core/combinators.py:306-317  _maybe *)
Definition maybe_sr {A} (p : psr A) : psr (option A) :=
  fun s pos c ins rem =>
    r <! p s pos c ins None ;;
    slift (match r with
    | ROk _ => res_fmap (fun v => Ret (Some v)) r
    | _ =>
        if res_con r then res_fmap (fun v => Ret (Some v)) r
        else Ret (ROk (Ok None pos c (res_exp r) false))
    end).

(** core/combinators.py:346-372  _many *)
Fixpoint many_sr {A} (p : psr A) (n : nat) (consumed : bool)
    (value : list A) (s : list T) (pos : nat) (c : ctx T) (ins : Z) : st St (res T (list A)) :=
  match n with
  | O => slift NoFuel
  | S n' =>
      r <! p s pos c ins None ;;
      match r with
      | ROk o =>
          if ok_con o then
            many_sr p n' true (value ++ [ok_val o]) s (ok_pos o) (ok_ctx o) ins
          else slift (Raise ManyEmpty)
      | RRec r =>
          continue_st r ins
            (fun _ p' c' _ => many_sr p n' false [] s p' c' ins)
            (fun a b => value ++ a :: b)
      | RErr e =>
          if er_con e then slift (Ret (RErr e))
          else slift (Ret (ROk (Ok value pos c (er_exp e) consumed)))
      end
  end.

(** core/combinators.py:391-405  _attempt *)
Definition attempt_sr {A} (pf : psf A) (p : psr A) : psr A :=
  fun s pos c ins rem =>
    match rem with
    | Some _ => p s pos c ins rem
    | None =>
        r <! pf s pos c ;;
        match r with
        | SErr e => slift (Ret (RErr (Err (er_loc e) (er_exp e) false)))
        | SOk o => slift (Ret (ROk o))
        end
    end.

(** core/combinators.py:423-440  label *)
Definition label_sr {A} (p : psr A) (x : string) : psr A :=
  fun s pos c ins rem => r <! p s pos c ins rem ;; slift (Ret (res_set_exp [x] r)).

(** core/combinators.py:443-464  recover *)
Definition recover_sr {A} (p : psr A) : psr A :=
  fun s pos c ins rem =>
    r <! p s pos c ins rem ;;
    slift (match r with
    | RRec r => Ret (RRec (Recd (map rep_set_prio (rc_reps r)) (rc_min r) (rc_loc r) (rc_exp r) (rc_con r)))
    | _ => Ret r
    end).

(** core/combinators.py:467-491, 505-534 *)
Definition recover_with_sr {A} (p : psr A) (mk : list T -> nat -> st St A)
    (lab : A -> string) : psr A :=
  fun s pos c ins rem =>
    match rem with
    | None => p s pos c ins None
    | Some m =>
        r <! p s pos c ins (Some m) ;;
        match r with
        | ROk _ => slift (Ret r)
        | _ =>
            if res_con r then slift (Ret r)
            else if Z.eqb m 0 then slift (Ret r)
            else
              x <! mk s pos ;;
              let l := get_loc c s pos in
              let rep := make_user_insert m x pos c l (lab x) (res_exp r) in
              match r with
              | RRec r => slift (Ret (RRec (Recd (rep :: rc_reps r) (rc_min r) l (rc_exp r) false)))
              | _ => slift (Ret (RRec (Recd [rep] None l [] false)))
              end
        end
    end.

(** core/layout.py:22-33, 52-63, 83-97 *)
Definition block_sr {A} (p : psr A) : psr A :=
  fun s pos c ins rem =>
    let c := update_loc c s pos in
    r <! p s pos (set_mark c (loc_col (ctx_loc c))) ins rem ;;
    slift (Ret (res_set_ctx c r)).
Definition aligned_sr {A} (p : psr A) : psr A :=
  fun s pos c ins rem =>
    let c := update_loc c s pos in
    if Z.eqb (ctx_mark c) (loc_col (ctx_loc c)) then p s pos c ins rem
    else slift (Ret (RErr (Err (ctx_loc c) [indentation] false))).
Definition indented_sr {A} (delta : Z) (p : psr A) : psr A :=
  fun s pos c ins rem =>
    let c := update_loc c s pos in
    let level := loc_col (ctx_loc c) in
    if Z.eqb (ctx_mark c + delta) level then
      r <! p s pos (set_mark c level) ins rem ;; slift (Ret (res_set_ctx c r))
    else slift (Ret (RErr (Err (ctx_loc c) [indentation] false))).

Context {V : nat -> Type}.
(** [gram] of [Grammar.v] with callbacks in [st]; the callback of [bind] may have
    effects before it returns a parser, and may raise *)
Inductive sgram : Type -> Type :=
| XPure {A} (x : A) : sgram A
| XPureFn {A} (f : unit -> st St A) : sgram A
| XUnexpected {A} (l : string) : sgram A
| XEof : sgram unit
| XSatisfy (test : T -> st St bool) : sgram T
| XSym (teq : T -> T -> bool) (x : T) (l : string) : sgram T
| XLiteral (teq : T -> T -> bool) (x : list T) (l : string) : sgram (list T)
| XRegexp {A} (m : list T -> nat -> option (nat * option A)) : sgram A
| XFmap {A B} (p : sgram A) (f : A -> st St B) : sgram B
| XAlt {A} (p q : sgram A) : sgram A
| XBind {A B} (p : sgram A) (f : A -> St -> St * out (sgram B)) : sgram B
| XSeq {A B C} (p : sgram A) (q : sgram B) (merge : A -> B -> C) : sgram C
| XMaybe {A} (p : sgram A) : sgram (option A)
| XMany {A} (p : sgram A) : sgram (list A)
| XAttempt {A} (p : sgram A) : sgram A
| XLabel {A} (p : sgram A) (x : string) : sgram A
| XRecover {A} (p : sgram A) : sgram A
| XRecoverWith {A} (p : sgram A) (x : A) (l : string) : sgram A
| XRecoverWithFn {A} (p : sgram A) (fn : list T -> nat -> st St A)
    (lab : A -> string) : sgram A
| XBlock {A} (p : sgram A) : sgram A
| XAligned {A} (p : sgram A) : sgram A
| XIndented {A} (delta : Z) (p : sgram A) : sgram A
| XDelay (d : nat) : sgram (V d)
| XUndef {A} : sgram A.

(** contents of every Delay object *)
Definition senv : Type := forall d : nat, sgram (V d).

(** [fast] of [Grammar.v] *)
Fixpoint sfast (E : senv) (n : nat) {A : Type} (g : sgram A) {struct n} : psf A :=
  match n with
  | O => fun _ _ _ => slift NoFuel
  | S n =>
      match g in sgram A return psf A with
      | XPure x => fun s pos c => slift (pure_fast x s pos c)
      | XPureFn f => purefn_sf f
      | XUnexpected l => fun s pos c => slift (unexpected_fast l s pos c)
      | XEof => fun s pos c => slift (eof_fast s pos c)
      | XSatisfy test => satisfy_sf test
      | XSym teq x l => fun s pos c => slift (sym_fast teq x l s pos c)
      | XLiteral teq x l => fun s pos c => slift (literal_fast teq x l s pos c)
      | XRegexp m => fun s pos c => slift (regexp_fast m s pos c)
      | XFmap p f => fmap_sf (sfast E n p) f
      | XAlt p q => alt_sf (sfast E n p) (sfast E n q)
      | XBind p f => bind_sf (sfast E n p) f (fun g => sfast E n g)
      | XSeq p q merge => seq_sf (sfast E n p) (sfast E n q) merge
      | XMaybe p => maybe_sf (sfast E n p)
      | XMany p => many_sf (sfast E n p) n false []
      | XAttempt p => attempt_sf (sfast E n p)
      | XLabel p x => label_sf (sfast E n p) x
      | XRecover p => sfast E n p
      | XRecoverWith p _ _ => sfast E n p
      | XRecoverWithFn p _ _ => sfast E n p
      | XBlock p => block_sf (sfast E n p)
      | XAligned p => aligned_sf (sfast E n p)
      | XIndented d p => indented_sf d (sfast E n p)
      | XDelay d => sfast E n (E d)
      | XUndef => fun s pos c => slift (Raise DelayUndefined)
      end
  end.

(** [full] of [Grammar.v] *)
Fixpoint sfull (E : senv) (n : nat) {A : Type} (g : sgram A) {struct n} : psr A :=
  match n with
  | O => fun _ _ _ _ _ => slift NoFuel
  | S n =>
      match g in sgram A return psr A with
      | XPure x => fun s pos c ins rem => slift (pure_full x s pos c ins rem)
      | XPureFn f => purefn_sr f
      | XUnexpected l => fun s pos c ins rem => slift (unexpected_full l s pos c ins rem)
      | XEof => fun s pos c ins rem => slift (eof_full s pos c ins rem)
      | XSatisfy test => satisfy_sr test
      | XSym teq x l => fun s pos c ins rem => slift (sym_full teq x l s pos c ins rem)
      | XLiteral teq x l => fun s pos c ins rem => slift (literal_full teq x l s pos c ins rem)
      | XRegexp m => fun s pos c ins rem => slift (regexp_full m s pos c ins rem)
      | XFmap p f => fmap_sr (sfull E n p) f
      | XAlt p q => alt_sr (sfull E n p) (sfull E n q)
      | XBind p f => bind_sr (sfull E n p) f (fun g => sfull E n g)
      | XSeq p q merge => seq_sr (sfull E n p) (sfull E n q) merge
      | XMaybe p => maybe_sr (sfull E n p)
      | XMany p => fun s pos c ins rem => many_sr (sfull E n p) n false [] s pos c ins
      | XAttempt p => attempt_sr (sfast E n p) (sfull E n p)
      | XLabel p x => label_sr (sfull E n p) x
      | XRecover p => recover_sr (sfull E n p)
      | XRecoverWith p x l =>
          recover_with_sr (sfull E n p) (fun _ _ => slift (Ret x)) (fun _ => l)
      | XRecoverWithFn p fn lab => recover_with_sr (sfull E n p) fn lab
      | XBlock p => block_sr (sfull E n p)
      | XAligned p => aligned_sr (sfull E n p)
      | XIndented d p => indented_sr d (sfull E n p)
      | XDelay d => sfull E n (E d)
      | XUndef => fun _ _ _ _ _ => slift (Raise DelayUndefined)
      end
  end.

(** parser.py:30-55  Parser.parse *)
Definition sparse {A} (E : senv) (n : nat) (g : sgram A) (s : list T) (recover : bool)
    (mi : Z) (get : loc -> list T -> nat -> loc) (fmt : loc -> string)
    : st St (presult T A) :=
  result <! (if recover then sfull E n g s 0 (init_ctx get) mi (Some mi)
             else r <! sfast E n g s 0 (init_ctx get) ;; slift (Ret (sres_res r))) ;;
  slift (Ret (ResultWrapper result fmt)).

(** a parser whose callbacks have no effects; a bind callback that has returned a parser
    that raises (see [gram] in [Grammar.v]) stays one *)
Fixpoint lift_gram {A} (g : gram T V A) : sgram A :=
  match g in gram _ _ A return sgram A with
  | GPure x => XPure x
  | GPureFn f => XPureFn (fun u => slift (f u))
  | GUnexpected l => XUnexpected l
  | GEof => XEof
  | GSatisfy test => XSatisfy (fun t => slift (test t))
  | GSym teq x l => XSym teq x l
  | GLiteral teq x l => XLiteral teq x l
  | GRegexp m => XRegexp m
  | GFmap p f => XFmap (lift_gram p) (fun a => slift (f a))
  | GAlt p q => XAlt (lift_gram p) (lift_gram q)
  | GBind p f => XBind (lift_gram p) (fun a w => (w, Ret (lift_gram (f a))))
  | GSeq p q merge => XSeq (lift_gram p) (lift_gram q) merge
  | GMaybe p => XMaybe (lift_gram p)
  | GMany p => XMany (lift_gram p)
  | GAttempt p => XAttempt (lift_gram p)
  | GLabel p x => XLabel (lift_gram p) x
  | GRecover p => XRecover (lift_gram p)
  | GRecoverWith p x l => XRecoverWith (lift_gram p) x l
  | GRecoverWithFn p fn lab => XRecoverWithFn (lift_gram p) (fun s i => slift (fn s i)) lab
  | GBlock p => XBlock (lift_gram p)
  | GAligned p => XAligned (lift_gram p)
  | GIndented d p => XIndented d (lift_gram p)
  | GDelay d => XDelay d
  | GUndef => XUndef
  end.
End Stateful.
Arguments psf St T A : clear implicits.
Arguments psr St T A : clear implicits.
Arguments sgram St T V A : clear implicits.
Arguments senv St T V : clear implicits.
