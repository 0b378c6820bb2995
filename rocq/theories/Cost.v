(** The model of the fast parse functions with a counter: the number of calls of
    parse functions that a run makes (calls of parse functions made by parse
    functions, core/parser.py:9-46).  Every definition is the one of [Prims.v],
    [Combinators.v], [Layout.v] or [Grammar.v] with the same name, with the counts of
    the calls added up; [cfast_fast] in [CostProofs.v] proves that it computes the
    same result. *)
From Verif Require Export Grammar Api.

(** a number of calls and an outcome *)
Definition cm (A : Type) : Type := nat * out A.
Definition cret {A} (x : out A) : cm A := (0, x).
Definition cbind {A B} (m : cm A) (f : A -> cm B) : cm B :=
  match snd m with
  | Ret a => (fst m + fst (f a), snd (f a))
  | Raise e => (fst m, Raise e)
  | NoFuel => (fst m, NoFuel)
  end.
(** one call *)
Definition tick {A} (m : cm A) : cm A := (S (fst m), snd m).
Notation "x <~ m ;; k" := (cbind m (fun x => k)) (at level 61, m at next level, right associativity).

Section Cost.
Context {T : Type}.
Definition pcost (A : Type) : Type := list T -> nat -> ctx T -> cm (sres T A).

(** core/combinators.py:16-23  _fmap_fast *)
Definition fmap_cost {A B} (p : pcost A) (f : A -> out B) : pcost B :=
  fun s pos c => r <~ p s pos c ;; cret (sres_fmap f r).

(** core/combinators.py:40-58  _alt_fast *)
Definition alt_cost {A} (p q : pcost A) : pcost A :=
  fun s pos c =>
    ra <~ p s pos c ;;
    match ra with
    | SOk _ => cret (Ret ra)
    | SErr ea =>
        if er_con ea then cret (Ret ra)
        else
          rb <~ q s pos c ;;
          if sres_con rb then cret (Ret rb)
          else
            match rb with
            | SOk ob =>
                cret (Ret (SOk (ok_set_exp (Append (er_exp ea) (ok_exp ob)) ob)))
            | SErr eb =>
                cret (Ret (SErr (Err (er_loc ea) (Append (er_exp ea) (er_exp eb)) false)))
            end
    end.

(** core/combinators.py:102-115  _bind_fast *)
Definition bind_cost {A B} (p : pcost A) (f : A -> pcost B) : pcost B :=
  fun s pos c =>
    ra <~ p s pos c ;;
    match ra with
    | SErr e => cret (Ret (SErr e))
    | SOk oa =>
        rb <~ f (ok_val oa) s (ok_pos oa) (ok_ctx oa) ;;
        cret (Ret (sres_prepend (ok_exp oa) (ok_con oa) rb))
    end.

(** core/combinators.py:152-169  _seq_h_fast *)
Definition seq_cost {A B C} (p : pcost A) (q : pcost B) (merge : A -> B -> C) : pcost C :=
  fun s pos c =>
    ra <~ p s pos c ;;
    match ra with
    | SErr e => cret (Ret (SErr e))
    | SOk oa =>
        let va := ok_val oa in
        rb <~ q s (ok_pos oa) (ok_ctx oa) ;;
        cret (rc <- sres_fmap (fun vb => Ret (merge va vb)) rb ;;
              Ret (sres_prepend (ok_exp oa) (ok_con oa) rc))
    end.

(** core/combinators.py:293-303  _maybe_fast *)
Definition maybe_cost {A} (p : pcost A) : pcost (option A) :=
  fun s pos c =>
    r <~ p s pos c ;;
    match r with
    | SOk _ => cret (sres_fmap (fun v => Ret (Some v)) r)
    | SErr e =>
        if er_con e then cret (Ret (SErr e))
        else cret (Ret (SOk (Ok None pos c (er_exp e) false)))
    end.

(** core/combinators.py:327-341  the loop of _many_fast *)
Fixpoint many_cost {A} (p : pcost A) (n : nat) (consumed : bool)
    (value : list A) (s : list T) (pos : nat) (c : ctx T) : cm (sres T (list A)) :=
  match n with
  | O => cret NoFuel
  | S n' =>
      r <~ p s pos c ;;
      match r with
      | SOk o =>
          if ok_con o then
            many_cost p n' true (value ++ [ok_val o]) s (ok_pos o) (ok_ctx o)
          else cret (Raise ManyEmpty)
      | SErr e =>
          if er_con e then cret (Ret (SErr e))
          else cret (Ret (SOk (Ok value pos c (er_exp e) consumed)))
      end
  end.

(** core/combinators.py:379-388  _attempt_fast *)
Definition attempt_cost {A} (p : pcost A) : pcost A :=
  fun s pos c =>
    r <~ p s pos c ;;
    match r with
    | SErr e => cret (Ret (SErr (Err (er_loc e) (er_exp e) false)))
    | SOk o => cret (Ret (SOk o))
    end.

(** core/combinators.py:412-420  _label_fast *)
Definition label_cost {A} (p : pcost A) (x : string) : pcost A :=
  fun s pos c => r <~ p s pos c ;; cret (Ret (sres_set_exp [x] r)).

(** core/layout.py:12-19, 40-49, 70-80 *)
Definition block_cost {A} (p : pcost A) : pcost A :=
  fun s pos c =>
    let c := update_loc c s pos in
    r <~ p s pos (set_mark c (loc_col (ctx_loc c))) ;;
    cret (Ret (sres_set_ctx c r)).
Definition aligned_cost {A} (p : pcost A) : pcost A :=
  fun s pos c =>
    let c := update_loc c s pos in
    if Z.eqb (ctx_mark c) (loc_col (ctx_loc c)) then p s pos c
    else cret (Ret (SErr (Err (ctx_loc c) [indentation] false))).
Definition indented_cost {A} (delta : Z) (p : pcost A) : pcost A :=
  fun s pos c =>
    let c := update_loc c s pos in
    let level := loc_col (ctx_loc c) in
    if Z.eqb (ctx_mark c + delta) level then
      r <~ p s pos (set_mark c level) ;; cret (Ret (sres_set_ctx c r))
    else cret (Ret (SErr (Err (ctx_loc c) [indentation] false))).

Context {V : nat -> Type}.
(** [fast] of [Grammar.v]; recover, recover_with and recover_with_fn use the fast
    function of their argument (core/combinators.py:461-464, 494-497, 539-543) *)
Fixpoint cfast (E : env T V) (n : nat) {A : Type} (g : gram T V A) {struct n} : pcost A :=
  match n with
  | O => fun _ _ _ => cret NoFuel
  | S n =>
      match g in gram _ _ A return pcost A with
      | GPure x => fun s pos c => tick (cret (pure_fast x s pos c))
      | GPureFn f => fun s pos c => tick (cret (purefn_fast f s pos c))
      | GUnexpected l => fun s pos c => tick (cret (unexpected_fast l s pos c))
      | GEof => fun s pos c => tick (cret (eof_fast s pos c))
      | GSatisfy test => fun s pos c => tick (cret (satisfy_fast test s pos c))
      | GSym teq x l => fun s pos c => tick (cret (sym_fast teq x l s pos c))
      | GLiteral teq x l => fun s pos c => tick (cret (literal_fast teq x l s pos c))
      | GRegexp m => fun s pos c => tick (cret (regexp_fast m s pos c))
      | GFmap p f => fun s pos c => tick (fmap_cost (cfast E n p) f s pos c)
      | GAlt p q => fun s pos c => tick (alt_cost (cfast E n p) (cfast E n q) s pos c)
      | GBind p f => fun s pos c => tick (bind_cost (cfast E n p) (fun v => cfast E n (f v)) s pos c)
      | GSeq p q merge => fun s pos c => tick (seq_cost (cfast E n p) (cfast E n q) merge s pos c)
      | GMaybe p => fun s pos c => tick (maybe_cost (cfast E n p) s pos c)
      | GMany p => fun s pos c => tick (many_cost (cfast E n p) n false [] s pos c)
      | GAttempt p => fun s pos c => tick (attempt_cost (cfast E n p) s pos c)
      | GLabel p x => fun s pos c => tick (label_cost (cfast E n p) x s pos c)
      | GRecover p => cfast E n p
      | GRecoverWith p _ _ => cfast E n p
      | GRecoverWithFn p _ _ => cfast E n p
      | GBlock p => fun s pos c => tick (block_cost (cfast E n p) s pos c)
      | GAligned p => fun s pos c => tick (aligned_cost (cfast E n p) s pos c)
      | GIndented d p => fun s pos c => tick (indented_cost d (cfast E n p) s pos c)
      | GDelay d => fun s pos c => tick (cfast E n (E d) s pos c)
      | GUndef => fun s pos c => tick (cret (Raise DelayUndefined))
      end
  end.

(** parser.py:30-55  Parser.parse without recovery, with the number of calls *)
Definition parse_counted {A} (E : env T V) (n : nat) (g : gram T V A) (s : list T)
    (get : loc -> list T -> nat -> loc) (fmt : loc -> string) : nat * out (presult T A) :=
  let r := cfast E n g s 0 (init_ctx get) in
  (fst r, (result <- omap sres_res (snd r) ;; Ret (ResultWrapper result fmt))).
End Cost.
Arguments pcost T A : clear implicits.
