(** The model of the recovering parse functions with a counter of the calls of parse
    functions (core/parser.py:9-46).  Every definition is the one of [Recovery.v],
    [Combinators.v], [Layout.v] or [Grammar.v] with the same name, with the counts of
    the calls added up; [cfull_full] in [CostFullProofs.v] proves that it computes the
    same result. *)
From Verif Require Export Cost.

(** list building loops: [flat_mapM] of [Base.v] with counts *)
Fixpoint cflat_map {A B} (f : A -> cm (list B)) (l : list A) : cm (list B) :=
  match l with
  | [] => cret (Ret [])
  | a :: l => x <~ f a ;; y <~ cflat_map f l ;; cret (Ret (x ++ y))
  end.

Section CostFull.
Context {T : Type}.
Definition pcostr (A : Type) : Type := list T -> nat -> ctx T -> Z -> option Z -> cm (res T A).

(** core/recovery.py:23-43  one iteration of the loop of continue_parse *)
Definition cont_one_cost {A B C} (ins : Z)
    (parse : A -> nat -> ctx T -> Z -> cm (res T B)) (merge : A -> B -> C)
    (r : repair T A) : cm (list (repair T C)) :=
  rb <~ parse (r_val r) (r_pos r) (r_ctx r) (r_ins r) ;;
  match rb with
  | ROk o => cret (Ret [cont_ok ins merge r o])
  | RRec rb => cret (Ret (map (cont_rec merge r) (rc_reps rb)))
  | RErr _ => cret (Ret [])
  end.
(** core/recovery.py:18-45  continue_parse *)
Definition continue_cost {A B C} (ra : recr T A) (ins : Z)
    (parse : A -> nat -> ctx T -> Z -> cm (res T B)) (merge : A -> B -> C)
    : cm (res T C) :=
  reps <~ cflat_map (cont_one_cost ins parse merge) (rc_reps ra) ;;
  cret (Ret (RRec (Recd reps (rc_min ra) (rc_loc ra) (rc_exp ra) (rc_con ra)))).

(** core/combinators.py:26-33  _fmap *)
Definition fmap_costr {A B} (p : pcostr A) (f : A -> out B) : pcostr B :=
  fun s pos c ins rem => r <~ p s pos c ins rem ;; cret (res_fmap f r).

(** core/combinators.py:79-88  the tail of _alt *)
Definition alt_recover_cost {A} (p q : pcostr A) (la : loc) (expected : list string) : pcostr A :=
  fun s pos c ins rem =>
    match rem with
    | None => cret (Ret (RErr (Err la expected false)))
    | Some _ =>
        rra <~ p s pos c ins rem ;;
        rrb <~ q s pos c ins rem ;;
        match rra with
        | RRec a =>
            match rrb with
            | RRec b => cret (Ret (RRec (rec_set_exp expected (join_repairs a b))))
            | _ => cret (Ret (RRec (rec_set_exp expected a)))
            end
        | _ =>
            match rrb with
            | RRec b => cret (Ret (RRec (rec_set_exp expected b)))
            | _ => cret (Ret (RErr (Err la expected false)))
            end
        end
    end.
(** core/combinators.py:61-90  _alt *)
Definition alt_costr {A} (p q : pcostr A) : pcostr A :=
  fun s pos c ins rem =>
    ra <~ p s pos c ins None ;;
    match ra with
    | ROk _ => cret (Ret ra)
    | RErr {| er_loc := la; er_exp := xa; er_con := ca |}
    | RRec {| rc_loc := la; rc_exp := xa; rc_con := ca |} =>
        if ca then cret (Ret ra)
        else
          rb <~ q s pos c ins None ;;
          if res_con rb then cret (Ret rb)
          else
            let expected := Append xa (res_exp rb) in
            match rb with
            | ROk ob => cret (Ret (ROk (ok_set_exp expected ob)))
            | _ => alt_recover_cost p q la expected s pos c ins rem
            end
    end.

(** core/combinators.py:118-143  _bind *)
Definition bind_costr {A B} (p : pcostr A) (f : A -> pcostr B) : pcostr B :=
  fun s pos c ins rem =>
    ra <~ p s pos c ins rem ;;
    match ra with
    | RErr e => cret (Ret (RErr e))
    | RRec ra =>
        continue_cost ra ins (fun v p c r => f v s p c ins (Some r)) (fun _ v => v)
    | ROk oa =>
        rb <~ f (ok_val oa) s (ok_pos oa) (ok_ctx oa) ins (if ok_con oa then Some ins else rem) ;;
        cret (Ret (res_prepend (ok_exp oa) (ok_con oa) rb))
    end.

(** core/combinators.py:172-196  _seq_h *)
Definition seq_costr {A B C} (p : pcostr A) (q : pcostr B) (merge : A -> B -> C) : pcostr C :=
  fun s pos c ins rem =>
    ra <~ p s pos c ins rem ;;
    match ra with
    | RErr e => cret (Ret (RErr e))
    | RRec ra => continue_cost ra ins (fun _ p c r => q s p c ins (Some r)) merge
    | ROk oa =>
        let va := ok_val oa in
        rb <~ q s (ok_pos oa) (ok_ctx oa) ins (if ok_con oa then Some ins else rem) ;;
        cret (rc <- res_fmap (fun vb => Ret (merge va vb)) rb ;;
              Ret (res_prepend (ok_exp oa) (ok_con oa) rc))
    end.

(** core/combinators.py:306-317  _maybe *)
Definition maybe_costr {A} (p : pcostr A) : pcostr (option A) :=
  fun s pos c ins rem =>
    r <~ p s pos c ins None ;;
    cret (match r with
    | ROk _ => res_fmap (fun v => Ret (Some v)) r
    | _ =>
        if res_con r then res_fmap (fun v => Ret (Some v)) r
        else Ret (ROk (Ok None pos c (res_exp r) false))
    end).

(** core/combinators.py:346-372  _many; the recursive call of the recovery
    continuation is a call of a parse function *)
Fixpoint many_costr {A} (p : pcostr A) (n : nat) (consumed : bool)
    (value : list A) (s : list T) (pos : nat) (c : ctx T) (ins : Z) : cm (res T (list A)) :=
  match n with
  | O => cret NoFuel
  | S n' =>
      r <~ p s pos c ins None ;;
      match r with
      | ROk o =>
          if ok_con o then
            many_costr p n' true (value ++ [ok_val o]) s (ok_pos o) (ok_ctx o) ins
          else cret (Raise ManyEmpty)
      | RRec r =>
          continue_cost r ins
            (fun _ p' c' _ => tick (many_costr p n' false [] s p' c' ins))
            (fun a b => value ++ a :: b)
      | RErr e =>
          if er_con e then cret (Ret (RErr e))
          else cret (Ret (ROk (Ok value pos c (er_exp e) consumed)))
      end
  end.

(** core/combinators.py:391-405  _attempt *)
Definition attempt_costr {A} (pf : pcost T A) (p : pcostr A) : pcostr A :=
  fun s pos c ins rem =>
    match rem with
    | Some _ => p s pos c ins rem
    | None =>
        r <~ pf s pos c ;;
        match r with
        | SErr e => cret (Ret (RErr (Err (er_loc e) (er_exp e) false)))
        | SOk o => cret (Ret (ROk o))
        end
    end.

(** core/combinators.py:423-440  label *)
Definition label_costr {A} (p : pcostr A) (x : string) : pcostr A :=
  fun s pos c ins rem => r <~ p s pos c ins rem ;; cret (Ret (res_set_exp [x] r)).

(** core/combinators.py:443-464  recover *)
Definition recover_costr {A} (p : pcostr A) : pcostr A :=
  fun s pos c ins rem =>
    r <~ p s pos c ins rem ;;
    cret (match r with
    | RRec r => Ret (RRec (Recd (map rep_set_prio (rc_reps r)) (rc_min r) (rc_loc r) (rc_exp r) (rc_con r)))
    | _ => Ret r
    end).

(** core/combinators.py:467-491, 505-534 *)
Definition recover_with_costr {A} (p : pcostr A) (mk : list T -> nat -> out A)
    (lab : A -> string) : pcostr A :=
  fun s pos c ins rem =>
    match rem with
    | None => p s pos c ins None
    | Some m =>
        r <~ p s pos c ins (Some m) ;;
        cret (match r with
        | ROk _ => Ret r
        | _ =>
            if res_con r then Ret r
            else if Z.eqb m 0 then Ret r
            else
              x <- mk s pos ;;
              let l := get_loc c s pos in
              let rep := make_user_insert m x pos c l (lab x) (res_exp r) in
              match r with
              | RRec r => Ret (RRec (Recd (rep :: rc_reps r) (rc_min r) l (rc_exp r) false))
              | _ => Ret (RRec (Recd [rep] None l [] false))
              end
        end)
    end.

(** core/layout.py:22-33, 52-63, 83-97 *)
Definition block_costr {A} (p : pcostr A) : pcostr A :=
  fun s pos c ins rem =>
    let c := update_loc c s pos in
    r <~ p s pos (set_mark c (loc_col (ctx_loc c))) ins rem ;;
    cret (Ret (res_set_ctx c r)).
Definition aligned_costr {A} (p : pcostr A) : pcostr A :=
  fun s pos c ins rem =>
    let c := update_loc c s pos in
    if Z.eqb (ctx_mark c) (loc_col (ctx_loc c)) then p s pos c ins rem
    else cret (Ret (RErr (Err (ctx_loc c) [indentation] false))).
Definition indented_costr {A} (delta : Z) (p : pcostr A) : pcostr A :=
  fun s pos c ins rem =>
    let c := update_loc c s pos in
    let level := loc_col (ctx_loc c) in
    if Z.eqb (ctx_mark c + delta) level then
      r <~ p s pos (set_mark c level) ins rem ;; cret (Ret (res_set_ctx c r))
    else cret (Ret (RErr (Err (ctx_loc c) [indentation] false))).

Context {V : nat -> Type}.
(** [full] of [Grammar.v] *)
Fixpoint cfull (E : env T V) (n : nat) {A : Type} (g : gram T V A) {struct n} : pcostr A :=
  match n with
  | O => fun _ _ _ _ _ => cret NoFuel
  | S n => fun s pos c ins rem => tick (
      match g in gram _ _ A return pcostr A with
      | GPure x => fun s pos c ins rem => cret (pure_full x s pos c ins rem)
      | GPureFn f => fun s pos c ins rem => cret (purefn_full f s pos c ins rem)
      | GUnexpected l => fun s pos c ins rem => cret (unexpected_full l s pos c ins rem)
      | GEof => fun s pos c ins rem => cret (eof_full s pos c ins rem)
      | GSatisfy test => fun s pos c ins rem => cret (satisfy_full test s pos c ins rem)
      | GSym teq x l => fun s pos c ins rem => cret (sym_full teq x l s pos c ins rem)
      | GLiteral teq x l => fun s pos c ins rem => cret (literal_full teq x l s pos c ins rem)
      | GRegexp m => fun s pos c ins rem => cret (regexp_full m s pos c ins rem)
      | GFmap p f => fmap_costr (cfull E n p) f
      | GAlt p q => alt_costr (cfull E n p) (cfull E n q)
      | GBind p f => bind_costr (cfull E n p) (fun v => cfull E n (f v))
      | GSeq p q merge => seq_costr (cfull E n p) (cfull E n q) merge
      | GMaybe p => maybe_costr (cfull E n p)
      | GMany p => fun s pos c ins rem => many_costr (cfull E n p) n false [] s pos c ins
      | GAttempt p => attempt_costr (cfast E n p) (cfull E n p)
      | GLabel p x => label_costr (cfull E n p) x
      | GRecover p => recover_costr (cfull E n p)
      | GRecoverWith p x l => recover_with_costr (cfull E n p) (fun _ _ => Ret x) (fun _ => l)
      | GRecoverWithFn p fn lab => recover_with_costr (cfull E n p) fn lab
      | GBlock p => block_costr (cfull E n p)
      | GAligned p => aligned_costr (cfull E n p)
      | GIndented d p => indented_costr d (cfull E n p)
      | GDelay d => cfull E n (E d)
      | GUndef => fun _ _ _ _ _ => cret (Raise DelayUndefined)
      end s pos c ins rem)
  end.

(** parser.py:30-55  Parser.parse with recovery, with the number of calls *)
Definition parse_counted_rec {A} (E : env T V) (n : nat) (g : gram T V A) (s : list T)
    (mi : Z) (get : loc -> list T -> nat -> loc) (fmt : loc -> string) : nat * out (presult T A) :=
  let r := cfull E n g s 0 (init_ctx get) mi (Some mi) in
  (fst r, (result <- snd r ;; Ret (ResultWrapper result fmt))).
End CostFull.
Arguments pcostr T A : clear implicits.
