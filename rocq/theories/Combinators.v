(** Model of src/reparsec/core/combinators.py.  Each combinator has the two
    halves of the code: [x_fast] for [_x_fast], [x_full] for [_x]. *)
From Verif Require Export Layout.

Section Combinators.
Context {T : Type}.

(** core/combinators.py:16-23  _fmap_fast *)
Definition fmap_fast {A B} (p : pfast T A) (f : A -> out B) : pfast T B :=
  fun s pos c => r <- p s pos c ;; sres_fmap f r.

(** core/combinators.py:26-33  _fmap *)
Definition fmap_full {A B} (p : pfull T A) (f : A -> out B) : pfull T B :=
  fun s pos c ins rem => r <- p s pos c ins rem ;; res_fmap f r.

(** core/combinators.py:40-58  _alt_fast *)
Definition alt_fast {A} (p q : pfast T A) : pfast T A :=
  fun s pos c =>
    ra <- p s pos c ;;
    match ra with
    | SOk _ => Ret ra
    | SErr ea =>
        if er_con ea then Ret ra
        else
          rb <- q s pos c ;;
          if sres_con rb then Ret rb
          else
            match rb with
            | SOk ob =>
                Ret (SOk (ok_set_exp (Append (er_exp ea) (ok_exp ob)) ob))
            | SErr eb =>
                Ret (SErr (Err (er_loc ea) (Append (er_exp ea) (er_exp eb)) false))
            end
    end.

(** The attributes of a Result that is not Ok (Error or Recovered):
    [.loc] and [.expected], core/result.py:55-64,90-101 *)
Definition res_loc {A} (r : res T A) : option loc :=
  match r with ROk _ => None | RErr e => Some (er_loc e) | RRec r => Some (rc_loc r) end.
Definition res_exp {A} (r : res T A) : list string :=
  match r with ROk o => ok_exp o | RErr e => er_exp e | RRec r => rc_exp r end.

(** core/combinators.py:79-88  the tail of _alt: both alternatives failed
    without consuming; [la] is [ra.loc], [expected] the joined list *)
Definition alt_recover {A} (p q : pfull T A) (la : loc) (expected : list string)
    : pfull T A :=
  fun s pos c ins rem =>
    match rem with
    | None => Ret (RErr (Err la expected false))
    | Some _ =>
        rra <- p s pos c ins rem ;;
        rrb <- q s pos c ins rem ;;
        match rra with
        | RRec a =>
            match rrb with
            | RRec b => Ret (RRec (rec_set_exp expected (join_repairs a b)))
            | _ => Ret (RRec (rec_set_exp expected a))
            end
        | _ =>
            match rrb with
            | RRec b => Ret (RRec (rec_set_exp expected b))
            | _ => Ret (RErr (Err la expected false))
            end
        end
    end.

(** core/combinators.py:61-90  _alt *)
Definition alt_full {A} (p q : pfull T A) : pfull T A :=
  fun s pos c ins rem =>
    ra <- p s pos c ins None ;;
    match ra with
    | ROk _ => Ret ra
    | RErr {| er_loc := la; er_exp := xa; er_con := ca |}
    | RRec {| rc_loc := la; rc_exp := xa; rc_con := ca |} =>
        if ca then Ret ra
        else
          rb <- q s pos c ins None ;;
          if res_con rb then Ret rb
          else
            let expected := Append xa (res_exp rb) in
            match rb with
            | ROk ob => Ret (ROk (ok_set_exp expected ob))
            | _ => alt_recover p q la expected s pos c ins rem
            end
    end.

(** core/combinators.py:102-115  _bind_fast; [f] maps a value to the fast
    function of the parser returned by the user's callback, which may raise *)
Definition bind_fast {A B} (p : pfast T A) (f : A -> pfast T B) : pfast T B :=
  fun s pos c =>
    ra <- p s pos c ;;
    match ra with
    | SErr e => Ret (SErr e)
    | SOk oa =>
        rb <- f (ok_val oa) s (ok_pos oa) (ok_ctx oa) ;;
        Ret (sres_prepend (ok_exp oa) (ok_con oa) rb)
    end.

(** core/combinators.py:118-143  _bind *)
Definition bind_full {A B} (p : pfull T A) (f : A -> pfull T B) : pfull T B :=
  fun s pos c ins rem =>
    ra <- p s pos c ins rem ;;
    match ra with
    | RErr e => Ret (RErr e)
    | RRec ra =>
        continue_parse ra ins (fun v p c r => f v s p c ins (Some r))
          (fun _ v => v)
    | ROk oa =>
        if ok_con oa then
          rb <- f (ok_val oa) s (ok_pos oa) (ok_ctx oa) ins (Some ins) ;;
          Ret (res_prepend (ok_exp oa) (ok_con oa) rb)
        else
          rb <- f (ok_val oa) s (ok_pos oa) (ok_ctx oa) ins rem ;;
          Ret (res_prepend (ok_exp oa) (ok_con oa) rb)
    end.

(** core/combinators.py:152-169  _seq_h_fast *)
Definition seq_fast {A B C} (p : pfast T A) (q : pfast T B) (merge : A -> B -> C)
    : pfast T C :=
  fun s pos c =>
    ra <- p s pos c ;;
    match ra with
    | SErr e => Ret (SErr e)
    | SOk oa =>
        let va := ok_val oa in
        rb <- q s (ok_pos oa) (ok_ctx oa) ;;
        rc <- sres_fmap (fun vb => Ret (merge va vb)) rb ;;
        Ret (sres_prepend (ok_exp oa) (ok_con oa) rc)
    end.

(** core/combinators.py:172-196  _seq_h *)
Definition seq_full {A B C} (p : pfull T A) (q : pfull T B) (merge : A -> B -> C)
    : pfull T C :=
  fun s pos c ins rem =>
    ra <- p s pos c ins rem ;;
    match ra with
    | RErr e => Ret (RErr e)
    | RRec ra =>
        continue_parse ra ins (fun _ p c r => q s p c ins (Some r)) merge
    | ROk oa =>
        let va := ok_val oa in
        rb <- q s (ok_pos oa) (ok_ctx oa) ins
                (if ok_con oa then Some ins else rem) ;;
        rc <- res_fmap (fun vb => Ret (merge va vb)) rb ;;
        Ret (res_prepend (ok_exp oa) (ok_con oa) rc)
    end.

(** core/combinators.py:293-303  _maybe_fast; the value is wrapped in
    [Some] (Python returns it bare) *)
Definition maybe_fast {A} (p : pfast T A) : pfast T (option A) :=
  fun s pos c =>
    r <- p s pos c ;;
    match r with
    | SOk _ => sres_fmap (fun v => Ret (Some v)) r
    | SErr e =>
        if er_con e then Ret (SErr e)
        else Ret (SOk (Ok None pos c (er_exp e) false))
    end.

(** core/combinators.py:306-317  _maybe *)
Definition maybe_full {A} (p : pfull T A) : pfull T (option A) :=
  fun s pos c ins rem =>
    r <- p s pos c ins None ;;
    match r with
    | ROk _ => res_fmap (fun v => Ret (Some v)) r
    | _ =>
        if res_con r then res_fmap (fun v => Ret (Some v)) r
        else Ret (ROk (Ok None pos c (res_exp r) false))
    end.

(** core/combinators.py:327-341  the loop of _many_fast; [n] is fuel,
    [consumed] and [value] are the loop variables *)
Fixpoint many_fast {A} (p : pfast T A) (n : nat) (consumed : bool)
    (value : list A) (s : list T) (pos : nat) (c : ctx T)
    : out (sres T (list A)) :=
  match n with
  | O => NoFuel
  | S n' =>
      r <- p s pos c ;;
      match r with
      | SOk o =>
          if ok_con o then
            many_fast p n' true (value ++ [ok_val o]) s (ok_pos o) (ok_ctx o)
          else Raise ManyEmpty
      | SErr e =>
          if er_con e then Ret (SErr e)
          else Ret (SOk (Ok value pos c (er_exp e) consumed))
      end
  end.

(** core/combinators.py:346-372  _many: the loop and, in the continuation of
    a repair, the recursive call [many(stream, p, c, ins, None)], which starts
    with an empty list.  [rem] is not used by the code. *)
Fixpoint many_full {A} (p : pfull T A) (n : nat) (consumed : bool)
    (value : list A) (s : list T) (pos : nat) (c : ctx T) (ins : Z)
    : out (res T (list A)) :=
  match n with
  | O => NoFuel
  | S n' =>
      r <- p s pos c ins None ;;
      match r with
      | ROk o =>
          if ok_con o then
            many_full p n' true (value ++ [ok_val o]) s (ok_pos o) (ok_ctx o) ins
          else Raise ManyEmpty
      | RRec r =>
          continue_parse r ins
            (fun _ p' c' _ => many_full p n' false [] s p' c' ins)
            (fun a b => value ++ a :: b)
      | RErr e =>
          if er_con e then Ret (RErr e)
          else Ret (ROk (Ok value pos c (er_exp e) consumed))
      end
  end.

(** core/combinators.py:379-388  _attempt_fast *)
Definition attempt_fast {A} (p : pfast T A) : pfast T A :=
  fun s pos c =>
    r <- p s pos c ;;
    match r with
    | SErr e => Ret (SErr (Err (er_loc e) (er_exp e) false))
    | SOk o => Ret (SOk o)
    end.

(** core/combinators.py:391-405  _attempt *)
Definition attempt_full {A} (pf : pfast T A) (p : pfull T A) : pfull T A :=
  fun s pos c ins rem =>
    match rem with
    | Some _ => p s pos c ins rem
    | None =>
        r <- pf s pos c ;;
        match r with
        | SErr e => Ret (RErr (Err (er_loc e) (er_exp e) false))
        | SOk o => Ret (ROk o)
        end
    end.

(** core/combinators.py:412-440  label, expected = [x] *)
Definition label_fast {A} (p : pfast T A) (x : string) : pfast T A :=
  fun s pos c => r <- p s pos c ;; Ret (sres_set_exp [x] r).
Definition label_full {A} (p : pfull T A) (x : string) : pfull T A :=
  fun s pos c ins rem => r <- p s pos c ins rem ;; Ret (res_set_exp [x] r).

(** core/combinators.py:455-457 *)
Definition rep_set_prio {A} (r : repair T A) : repair T A :=
  Repair (r_cost r)
    (match r_prio r with None => Some 0 | Some p => Some p end)
    (r_ins r) (r_ops r) (r_val r) (r_pos r) (r_ctx r) (r_exp r) (r_con r).

(** core/combinators.py:443-464  recover *)
Definition recover_fast {A} (p : pfast T A) : pfast T A := p.
Definition recover_full {A} (p : pfull T A) : pfull T A :=
  fun s pos c ins rem =>
    r <- p s pos c ins rem ;;
    match r with
    | RRec r =>
        Ret (RRec (Recd (map rep_set_prio (rc_reps r)) (rc_min r) (rc_loc r)
                     (rc_exp r) (rc_con r)))
    | _ => Ret r
    end.

(** core/combinators.py:467-491 and 505-534: [recover_with] and
    [recover_with_fn] differ only in where the value comes from; [mk] is
    [fn(stream, pos)] (constant for recover_with) and [lab] its label. *)
Definition recover_with_fast {A} (p : pfast T A) : pfast T A := p.
Definition recover_with_full {A} (p : pfull T A) (mk : list T -> nat -> out A)
    (lab : A -> string) : pfull T A :=
  fun s pos c ins rem =>
    match rem with
    | None => p s pos c ins None
    | Some m =>
        r <- p s pos c ins (Some m) ;;
        match r with
        | ROk _ => Ret r
        | _ =>
            if res_con r then Ret r
            else if Z.eqb m 0 then Ret r
            else
              x <- mk s pos ;;
              let l := get_loc c s pos in
              let rep := make_user_insert m x pos c l (lab x) (res_exp r) in
              match r with
              | RRec r =>
                  Ret (RRec (Recd (rep :: rc_reps r) (rc_min r) l (rc_exp r) false))
              | _ => Ret (RRec (Recd [rep] None l [] false))
              end
        end
    end.

End Combinators.
