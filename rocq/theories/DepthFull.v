(** The model of the recovering parse functions with their call depth, as in
    [Depth.v] (core/parser.py:9-46).  Every definition is the one of [Recovery.v],
    [Combinators.v], [Layout.v] or [Grammar.v] with the same name; [dfull_full] in
    [DepthFullProofs.v] proves that it computes the same result. *)
From Verif Require Export Depth.

(** list building loops: [flat_mapM] of [Base.v] with depths *)
Fixpoint dflat_map {A B} (f : A -> dm (list B)) (l : list A) : dm (list B) :=
  match l with
  | [] => dret (Ret [])
  | a :: l => x <^ f a ;; y <^ dflat_map f l ;; dret (Ret (x ++ y))
  end.

Section DepthFull.
Context {T : Type}.
Definition pdepthr (A : Type) : Type := list T -> nat -> ctx T -> Z -> option Z -> dm (res T A).

(** core/recovery.py:23-43  one iteration of the loop of continue_parse *)
Definition cont_one_depth {A B C} (ins : Z)
    (parse : A -> nat -> ctx T -> Z -> dm (res T B)) (merge : A -> B -> C)
    (r : repair T A) : dm (list (repair T C)) :=
  rb <^ parse (r_val r) (r_pos r) (r_ctx r) (r_ins r) ;;
  match rb with
  | ROk o => dret (Ret [cont_ok ins merge r o])
  | RRec rb => dret (Ret (map (cont_rec merge r) (rc_reps rb)))
  | RErr _ => dret (Ret [])
  end.
(** core/recovery.py:18-45  continue_parse *)
Definition continue_depth {A B C} (ra : recr T A) (ins : Z)
    (parse : A -> nat -> ctx T -> Z -> dm (res T B)) (merge : A -> B -> C)
    : dm (res T C) :=
  reps <^ dflat_map (cont_one_depth ins parse merge) (rc_reps ra) ;;
  dret (Ret (RRec (Recd reps (rc_min ra) (rc_loc ra) (rc_exp ra) (rc_con ra)))).

(** core/combinators.py:26-33  _fmap *)
Definition fmap_depthr {A B} (p : pdepthr A) (f : A -> out B) : pdepthr B :=
  fun s pos c ins rem => r <^ p s pos c ins rem ;; dret (res_fmap f r).

(** core/combinators.py:79-88  the tail of _alt *)
Definition alt_recover_depth {A} (p q : pdepthr A) (la : loc) (expected : list string) : pdepthr A :=
  fun s pos c ins rem =>
    match rem with
    | None => dret (Ret (RErr (Err la expected false)))
    | Some _ =>
        rra <^ p s pos c ins rem ;;
        rrb <^ q s pos c ins rem ;;
        match rra with
        | RRec a =>
            match rrb with
            | RRec b => dret (Ret (RRec (rec_set_exp expected (join_repairs a b))))
            | _ => dret (Ret (RRec (rec_set_exp expected a)))
            end
        | _ =>
            match rrb with
            | RRec b => dret (Ret (RRec (rec_set_exp expected b)))
            | _ => dret (Ret (RErr (Err la expected false)))
            end
        end
    end.
(** core/combinators.py:61-90  _alt *)
Definition alt_depthr {A} (p q : pdepthr A) : pdepthr A :=
  fun s pos c ins rem =>
    ra <^ p s pos c ins None ;;
    match ra with
    | ROk _ => dret (Ret ra)
    | RErr {| er_loc := la; er_exp := xa; er_con := ca |}
    | RRec {| rc_loc := la; rc_exp := xa; rc_con := ca |} =>
        if ca then dret (Ret ra)
        else
          rb <^ q s pos c ins None ;;
          if res_con rb then dret (Ret rb)
          else
            let expected := Append xa (res_exp rb) in
            match rb with
            | ROk ob => dret (Ret (ROk (ok_set_exp expected ob)))
            | _ => alt_recover_depth p q la expected s pos c ins rem
            end
    end.

(** core/combinators.py:118-143  _bind *)
Definition bind_depthr {A B} (p : pdepthr A) (f : A -> pdepthr B) : pdepthr B :=
  fun s pos c ins rem =>
    ra <^ p s pos c ins rem ;;
    match ra with
    | RErr e => dret (Ret (RErr e))
    | RRec ra =>
        continue_depth ra ins (fun v p c r => f v s p c ins (Some r)) (fun _ v => v)
    | ROk oa =>
        rb <^ f (ok_val oa) s (ok_pos oa) (ok_ctx oa) ins (if ok_con oa then Some ins else rem) ;;
        dret (Ret (res_prepend (ok_exp oa) (ok_con oa) rb))
    end.

(** core/combinators.py:172-196  _seq_h *)
Definition seq_depthr {A B C} (p : pdepthr A) (q : pdepthr B) (merge : A -> B -> C) : pdepthr C :=
  fun s pos c ins rem =>
    ra <^ p s pos c ins rem ;;
    match ra with
    | RErr e => dret (Ret (RErr e))
    | RRec ra => continue_depth ra ins (fun _ p c r => q s p c ins (Some r)) merge
    | ROk oa =>
        let va := ok_val oa in
        rb <^ q s (ok_pos oa) (ok_ctx oa) ins (if ok_con oa then Some ins else rem) ;;
        dret (rc <- res_fmap (fun vb => Ret (merge va vb)) rb ;;
              Ret (res_prepend (ok_exp oa) (ok_con oa) rc))
    end.

(** core/combinators.py:306-317  _maybe *)
Definition maybe_depthr {A} (p : pdepthr A) : pdepthr (option A) :=
  fun s pos c ins rem =>
    r <^ p s pos c ins None ;;
    dret (match r with
    | ROk _ => res_fmap (fun v => Ret (Some v)) r
    | _ =>
        if res_con r then res_fmap (fun v => Ret (Some v)) r
        else Ret (ROk (Ok None pos c (res_exp r) false))
    end).

(** core/combinators.py:346-372  _many; the recursive call of the recovery
    continuation is a call of a parse function *)
Fixpoint many_depthr {A} (p : pdepthr A) (n : nat) (consumed : bool)
    (value : list A) (s : list T) (pos : nat) (c : ctx T) (ins : Z) : dm (res T (list A)) :=
  match n with
  | O => dret NoFuel
  | S n' =>
      r <^ p s pos c ins None ;;
      match r with
      | ROk o =>
          if ok_con o then
            many_depthr p n' true (value ++ [ok_val o]) s (ok_pos o) (ok_ctx o) ins
          else dret (Raise ManyEmpty)
      | RRec r =>
          continue_depth r ins
            (fun _ p' c' _ => nest (many_depthr p n' false [] s p' c' ins))
            (fun a b => value ++ a :: b)
      | RErr e =>
          if er_con e then dret (Ret (RErr e))
          else dret (Ret (ROk (Ok value pos c (er_exp e) consumed)))
      end
  end.

(** core/combinators.py:391-405  _attempt *)
Definition attempt_depthr {A} (pf : pdepth T A) (p : pdepthr A) : pdepthr A :=
  fun s pos c ins rem =>
    match rem with
    | Some _ => p s pos c ins rem
    | None =>
        r <^ pf s pos c ;;
        match r with
        | SErr e => dret (Ret (RErr (Err (er_loc e) (er_exp e) false)))
        | SOk o => dret (Ret (ROk o))
        end
    end.

(** core/combinators.py:423-440  label *)
Definition label_depthr {A} (p : pdepthr A) (x : string) : pdepthr A :=
  fun s pos c ins rem => r <^ p s pos c ins rem ;; dret (Ret (res_set_exp [x] r)).

(** core/combinators.py:443-464  recover *)
Definition recover_depthr {A} (p : pdepthr A) : pdepthr A :=
  fun s pos c ins rem =>
    r <^ p s pos c ins rem ;;
    dret (match r with
    | RRec r => Ret (RRec (Recd (map rep_set_prio (rc_reps r)) (rc_min r) (rc_loc r) (rc_exp r) (rc_con r)))
    | _ => Ret r
    end).

(** core/combinators.py:467-491, 505-534 *)
Definition recover_with_depthr {A} (p : pdepthr A) (mk : list T -> nat -> out A)
    (lab : A -> string) : pdepthr A :=
  fun s pos c ins rem =>
    match rem with
    | None => p s pos c ins None
    | Some m =>
        r <^ p s pos c ins (Some m) ;;
        dret (match r with
        | ROk _ => Ret r
        | _ =>
            if res_con r then Ret r
            else if Z.eqb m 0 then Ret r
            else
              x <- mk s pos ;;
              let l := get_loc c s pos in
              let rep := make_user_insert m x pos c l (lab x) (res_exp r) in
              match r with
              | RRec r => Ret (RRec (Recd (rep :: rc_reps r) (rc_min r) l (rc_exp r) false))
              | _ => Ret (RRec (Recd [rep] None l [] false))
              end
        end)
    end.

(** core/layout.py:22-33, 52-63, 83-97 *)
Definition block_depthr {A} (p : pdepthr A) : pdepthr A :=
  fun s pos c ins rem =>
    let c := update_loc c s pos in
    r <^ p s pos (set_mark c (loc_col (ctx_loc c))) ins rem ;;
    dret (Ret (res_set_ctx c r)).
Definition aligned_depthr {A} (p : pdepthr A) : pdepthr A :=
  fun s pos c ins rem =>
    let c := update_loc c s pos in
    if Z.eqb (ctx_mark c) (loc_col (ctx_loc c)) then p s pos c ins rem
    else dret (Ret (RErr (Err (ctx_loc c) [indentation] false))).
Definition indented_depthr {A} (delta : Z) (p : pdepthr A) : pdepthr A :=
  fun s pos c ins rem =>
    let c := update_loc c s pos in
    let level := loc_col (ctx_loc c) in
    if Z.eqb (ctx_mark c + delta) level then
      r <^ p s pos (set_mark c level) ins rem ;; dret (Ret (res_set_ctx c r))
    else dret (Ret (RErr (Err (ctx_loc c) [indentation] false))).

Context {V : nat -> Type}.
(** [full] of [Grammar.v] *)
Fixpoint dfull (E : env T V) (n : nat) {A : Type} (g : gram T V A) {struct n} : pdepthr A :=
  match n with
  | O => fun _ _ _ _ _ => dret NoFuel
  | S n => fun s pos c ins rem => nest (
      match g in gram _ _ A return pdepthr A with
      | GPure x => fun s pos c ins rem => dret (pure_full x s pos c ins rem)
      | GPureFn f => fun s pos c ins rem => dret (purefn_full f s pos c ins rem)
      | GUnexpected l => fun s pos c ins rem => dret (unexpected_full l s pos c ins rem)
      | GEof => fun s pos c ins rem => dret (eof_full s pos c ins rem)
      | GSatisfy test => fun s pos c ins rem => dret (satisfy_full test s pos c ins rem)
      | GSym teq x l => fun s pos c ins rem => dret (sym_full teq x l s pos c ins rem)
      | GLiteral teq x l => fun s pos c ins rem => dret (literal_full teq x l s pos c ins rem)
      | GRegexp m => fun s pos c ins rem => dret (regexp_full m s pos c ins rem)
      | GFmap p f => fmap_depthr (dfull E n p) f
      | GAlt p q => alt_depthr (dfull E n p) (dfull E n q)
      | GBind p f => bind_depthr (dfull E n p) (fun v => dfull E n (f v))
      | GSeq p q merge => seq_depthr (dfull E n p) (dfull E n q) merge
      | GMaybe p => maybe_depthr (dfull E n p)
      | GMany p => fun s pos c ins rem => many_depthr (dfull E n p) n false [] s pos c ins
      | GAttempt p => attempt_depthr (dfast E n p) (dfull E n p)
      | GLabel p x => label_depthr (dfull E n p) x
      | GRecover p => recover_depthr (dfull E n p)
      | GRecoverWith p x l => recover_with_depthr (dfull E n p) (fun _ _ => Ret x) (fun _ => l)
      | GRecoverWithFn p fn lab => recover_with_depthr (dfull E n p) fn lab
      | GBlock p => block_depthr (dfull E n p)
      | GAligned p => aligned_depthr (dfull E n p)
      | GIndented d p => indented_depthr d (dfull E n p)
      | GDelay d => dfull E n (E d)
      | GUndef => fun _ _ _ _ _ => dret (Raise DelayUndefined)
      end s pos c ins rem)
  end.

(** parser.py:30-55  Parser.parse with recovery, with the depth of the calls *)
Definition parse_nested_rec {A} (E : env T V) (n : nat) (g : gram T V A) (s : list T)
    (mi : Z) (get : loc -> list T -> nat -> loc) (fmt : loc -> string) : nat * out (presult T A) :=
  let r := dfull E n g s 0 (init_ctx get) mi (Some mi) in
  (fst r, (result <- snd r ;; Ret (ResultWrapper result fmt))).
End DepthFull.
Arguments pdepthr T A : clear implicits.
