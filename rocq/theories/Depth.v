(** The model of the fast parse functions with their call depth: how many calls of
    parse functions are active at the same time in a run (calls of parse functions made
    by parse functions, core/parser.py:9-46).  Every definition is the one of
    [Prims.v], [Combinators.v], [Layout.v] or [Grammar.v] with the same name; two calls
    made one after the other give the larger of the two depths, a call made by a call
    adds one.  [dfast_fast] in [DepthProofs.v] proves that it computes the same
    result.  The calls that are not calls of parse functions (the callbacks given to
    [fmap], [prepend_expected], iteration over chains of operations) are not counted. *)
From Verif Require Export Grammar Api.

(** a number of nested calls and an outcome *)
Definition dm (A : Type) : Type := nat * out A.
Definition dret {A} (x : out A) : dm A := (0, x).
Definition dbind {A B} (m : dm A) (f : A -> dm B) : dm B :=
  match snd m with
  | Ret a => (max (fst m) (fst (f a)), snd (f a))
  | Raise e => (fst m, Raise e)
  | NoFuel => (fst m, NoFuel)
  end.
(** the calls made by a call *)
Definition nest {A} (m : dm A) : dm A := (S (fst m), snd m).
Notation "x <^ m ;; k" := (dbind m (fun x => k)) (at level 61, m at next level, right associativity).

Section Depth.
Context {T : Type}.
Definition pdepth (A : Type) : Type := list T -> nat -> ctx T -> dm (sres T A).

(** core/combinators.py:16-23  _fmap_fast *)
Definition fmap_depth {A B} (p : pdepth A) (f : A -> out B) : pdepth B :=
  fun s pos c => r <^ p s pos c ;; dret (sres_fmap f r).

(** core/combinators.py:40-58  _alt_fast *)
Definition alt_depth {A} (p q : pdepth A) : pdepth A :=
  fun s pos c =>
    ra <^ p s pos c ;;
    match ra with
    | SOk _ => dret (Ret ra)
    | SErr ea =>
        if er_con ea then dret (Ret ra)
        else
          rb <^ q s pos c ;;
          if sres_con rb then dret (Ret rb)
          else
            match rb with
            | SOk ob =>
                dret (Ret (SOk (ok_set_exp (Append (er_exp ea) (ok_exp ob)) ob)))
            | SErr eb =>
                dret (Ret (SErr (Err (er_loc ea) (Append (er_exp ea) (er_exp eb)) false)))
            end
    end.

(** core/combinators.py:102-115  _bind_fast *)
Definition bind_depth {A B} (p : pdepth A) (f : A -> pdepth B) : pdepth B :=
  fun s pos c =>
    ra <^ p s pos c ;;
    match ra with
    | SErr e => dret (Ret (SErr e))
    | SOk oa =>
        rb <^ f (ok_val oa) s (ok_pos oa) (ok_ctx oa) ;;
        dret (Ret (sres_prepend (ok_exp oa) (ok_con oa) rb))
    end.

(** core/combinators.py:152-169  _seq_h_fast *)
Definition seq_depth {A B C} (p : pdepth A) (q : pdepth B) (merge : A -> B -> C) : pdepth C :=
  fun s pos c =>
    ra <^ p s pos c ;;
    match ra with
    | SErr e => dret (Ret (SErr e))
    | SOk oa =>
        let va := ok_val oa in
        rb <^ q s (ok_pos oa) (ok_ctx oa) ;;
        dret (rc <- sres_fmap (fun vb => Ret (merge va vb)) rb ;;
              Ret (sres_prepend (ok_exp oa) (ok_con oa) rc))
    end.

(** core/combinators.py:293-303  _maybe_fast *)
Definition maybe_depth {A} (p : pdepth A) : pdepth (option A) :=
  fun s pos c =>
    r <^ p s pos c ;;
    match r with
    | SOk _ => dret (sres_fmap (fun v => Ret (Some v)) r)
    | SErr e =>
        if er_con e then dret (Ret (SErr e))
        else dret (Ret (SOk (Ok None pos c (er_exp e) false)))
    end.

(** core/combinators.py:327-341  the loop of _many_fast *)
Fixpoint many_depth {A} (p : pdepth A) (n : nat) (consumed : bool)
    (value : list A) (s : list T) (pos : nat) (c : ctx T) : dm (sres T (list A)) :=
  match n with
  | O => dret NoFuel
  | S n' =>
      r <^ p s pos c ;;
      match r with
      | SOk o =>
          if ok_con o then
            many_depth p n' true (value ++ [ok_val o]) s (ok_pos o) (ok_ctx o)
          else dret (Raise ManyEmpty)
      | SErr e =>
          if er_con e then dret (Ret (SErr e))
          else dret (Ret (SOk (Ok value pos c (er_exp e) consumed)))
      end
  end.

(** core/combinators.py:379-388  _attempt_fast *)
Definition attempt_depth {A} (p : pdepth A) : pdepth A :=
  fun s pos c =>
    r <^ p s pos c ;;
    match r with
    | SErr e => dret (Ret (SErr (Err (er_loc e) (er_exp e) false)))
    | SOk o => dret (Ret (SOk o))
    end.

(** core/combinators.py:412-420  _label_fast *)
Definition label_depth {A} (p : pdepth A) (x : string) : pdepth A :=
  fun s pos c => r <^ p s pos c ;; dret (Ret (sres_set_exp [x] r)).

(** core/layout.py:12-19, 40-49, 70-80 *)
Definition block_depth {A} (p : pdepth A) : pdepth A :=
  fun s pos c =>
    let c := update_loc c s pos in
    r <^ p s pos (set_mark c (loc_col (ctx_loc c))) ;;
    dret (Ret (sres_set_ctx c r)).
Definition aligned_depth {A} (p : pdepth A) : pdepth A :=
  fun s pos c =>
    let c := update_loc c s pos in
    if Z.eqb (ctx_mark c) (loc_col (ctx_loc c)) then p s pos c
    else dret (Ret (SErr (Err (ctx_loc c) [indentation] false))).
Definition indented_depth {A} (delta : Z) (p : pdepth A) : pdepth A :=
  fun s pos c =>
    let c := update_loc c s pos in
    let level := loc_col (ctx_loc c) in
    if Z.eqb (ctx_mark c + delta) level then
      r <^ p s pos (set_mark c level) ;; dret (Ret (sres_set_ctx c r))
    else dret (Ret (SErr (Err (ctx_loc c) [indentation] false))).

Context {V : nat -> Type}.
(** [fast] of [Grammar.v]; recover, recover_with and recover_with_fn use the fast
    function of their argument (core/combinators.py:461-464, 494-497, 539-543) *)
Fixpoint dfast (E : env T V) (n : nat) {A : Type} (g : gram T V A) {struct n} : pdepth A :=
  match n with
  | O => fun _ _ _ => dret NoFuel
  | S n =>
      match g in gram _ _ A return pdepth A with
      | GPure x => fun s pos c => nest (dret (pure_fast x s pos c))
      | GPureFn f => fun s pos c => nest (dret (purefn_fast f s pos c))
      | GUnexpected l => fun s pos c => nest (dret (unexpected_fast l s pos c))
      | GEof => fun s pos c => nest (dret (eof_fast s pos c))
      | GSatisfy test => fun s pos c => nest (dret (satisfy_fast test s pos c))
      | GSym teq x l => fun s pos c => nest (dret (sym_fast teq x l s pos c))
      | GLiteral teq x l => fun s pos c => nest (dret (literal_fast teq x l s pos c))
      | GRegexp m => fun s pos c => nest (dret (regexp_fast m s pos c))
      | GFmap p f => fun s pos c => nest (fmap_depth (dfast E n p) f s pos c)
      | GAlt p q => fun s pos c => nest (alt_depth (dfast E n p) (dfast E n q) s pos c)
      | GBind p f => fun s pos c => nest (bind_depth (dfast E n p) (fun v => dfast E n (f v)) s pos c)
      | GSeq p q merge => fun s pos c => nest (seq_depth (dfast E n p) (dfast E n q) merge s pos c)
      | GMaybe p => fun s pos c => nest (maybe_depth (dfast E n p) s pos c)
      | GMany p => fun s pos c => nest (many_depth (dfast E n p) n false [] s pos c)
      | GAttempt p => fun s pos c => nest (attempt_depth (dfast E n p) s pos c)
      | GLabel p x => fun s pos c => nest (label_depth (dfast E n p) x s pos c)
      | GRecover p => dfast E n p
      | GRecoverWith p _ _ => dfast E n p
      | GRecoverWithFn p _ _ => dfast E n p
      | GBlock p => fun s pos c => nest (block_depth (dfast E n p) s pos c)
      | GAligned p => fun s pos c => nest (aligned_depth (dfast E n p) s pos c)
      | GIndented d p => fun s pos c => nest (indented_depth d (dfast E n p) s pos c)
      | GDelay d => fun s pos c => nest (dfast E n (E d) s pos c)
      | GUndef => fun s pos c => nest (dret (Raise DelayUndefined))
      end
  end.

(** parser.py:30-55  Parser.parse without recovery, with the depth of the calls *)
Definition parse_nested {A} (E : env T V) (n : nat) (g : gram T V A) (s : list T)
    (get : loc -> list T -> nat -> loc) (fmt : loc -> string) : nat * out (presult T A) :=
  let r := dfast E n g s 0 (init_ctx get) in
  (fst r, (result <- omap sres_res (snd r) ;; Ret (ResultWrapper result fmt))).
End Depth.
Arguments pdepth T A : clear implicits.
