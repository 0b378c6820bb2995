(** The code of Heap.v once more, with the statements that touch the heap
    (allocate, read, write an object; call a callback; sequence) left open, so
    that it can be run in other ways than from beginning to end: Threads.v runs
    it step by step, interleaved with other threads.  Every definition is the
    one of Heap.v with the same name (which cites the code); [heap_instance]
    below checks that Heap.v is the instance with a single thread. *)
From Verif Require Export Heap.

(** a way to run statements *)
Record sem (T : Type) : Type := Sem {
  sM : Type -> Type;
  sret : forall X, X -> sM X;
  scall : forall X, out X -> sM X;
  sbind : forall X Y, sM X -> (X -> sM Y) -> sM Y;
  salloc : cell T -> sM nat;
  sget : nat -> sM (cell T);
  sput : nat -> cell T -> sM unit
}.
Arguments sM {T}. Arguments sret {T} s {X}. Arguments scall {T} s {X}. Arguments sbind {T} s {X Y}.
Arguments salloc {T}. Arguments sget {T}. Arguments sput {T}.

Section Gen.
Context {T : Type}.
Variable sm : sem T.
Notation M := (sM sm).
Notation ret := (sret sm).
Notation call := (scall sm).
Notation bindM := (sbind sm).
Notation alloc := (salloc sm).
Notation get := (sget sm).
Notation put := (sput sm).
Notation "x <~ m ;; k" := (bindM m (fun x => k))
  (at level 61, m at next level, right associativity).

Fixpoint mapH {X Y} (f : X -> M Y) (l : list X) : M (list Y) :=
  match l with
  | [] => ret []
  | x :: l => y <~ f x ;; ys <~ mapH f l ;; ret (y :: ys)
  end.
Fixpoint flat_mapH {X Y} (f : X -> M (list Y)) (l : list X) : M (list Y) :=
  match l with
  | [] => ret []
  | x :: l => y <~ f x ;; ys <~ flat_mapH f l ;; ret (y ++ ys)
  end.
Fixpoint iterH {X} (f : X -> M unit) (l : list X) : M unit :=
  match l with
  | [] => ret tt
  | x :: l => u <~ f x ;; iterH f l
  end.

(** ** Constructors *)
Definition new_ok {A} (v : A) (pos : nat) (c : ctx T) (x : list string) (con : bool) : M (hok A) :=
  a <~ alloc (Cell None c x con) ;; ret (HOk v pos a).
Definition new_err (l : loc) (x : list string) (con : bool) : M herr :=
  a <~ alloc (Cell None no_ctx x con) ;; ret (HErr l a).
Definition new_rec {A} (reps : list (hrep A)) (min : option nat) (l : loc) (x : list string) (con : bool)
    : M (hrec A) :=
  a <~ alloc (Cell None no_ctx x con) ;; ret (HRec reps min l a).
Definition new_op (o : rop) (l : loc) (x : list string) (con : bool) : M hop :=
  a <~ alloc (Cell None no_ctx x con) ;; ret (HOp o l a).
Definition new_rep {A} (cost : nat) (prio : option nat) (ins : Z) (ops : list hop) (v : A) (pos : nat)
    (c : ctx T) (x : list string) (con : bool) : M (hrep A) :=
  a <~ alloc (Cell prio c x con) ;; ret (HRep cost ins ops v pos a).

(** core/repair.py:64-96 *)
Definition h_make_insert {A} (rem : Z) (value : A) (pos : nat) (c : ctx T) (l : loc)
    (label : string) (expected : list string) : M (hrep A) :=
  o <~ new_op (Insert label) l expected false ;;
  new_rep 1 None (rem - 1)%Z [o] value pos c [] true.
Definition h_make_user_insert {A} (rem : Z) (value : A) (pos : nat) (c : ctx T) (l : loc)
    (label : string) (expected : list string) : M (hrep A) :=
  o <~ new_op (Insert label) l expected false ;;
  new_rep 1 (Some 0) (rem - 1)%Z [o] value pos c [] true.
Definition h_make_skip {A} (ins : Z) (value : A) (pos : nat) (c : ctx T) (l : loc)
    (skip : nat) (expected : list string) : M (hrep A) :=
  o <~ new_op (Skip skip) l expected false ;;
  new_rep skip (Some 0) ins [o] value pos c [] true.
Definition h_make_pending_skip {A} (ins : Z) (value : A) (pos : nat) (c : ctx T) (l : loc)
    (skip : nat) (expected : list string) : M (hrep A) :=
  o <~ new_op (Skip skip) l expected false ;;
  new_rep skip (Some 0) ins [o] value pos c [] false.

(** ** Attribute updates *)
Definition put_exp (a : nat) (x : list string) : M unit :=
  c <~ get a ;; put a (Cell (c_prio c) (c_ctx c) x (c_con c)).
Definition put_con (a : nat) (b : bool) : M unit :=
  c <~ get a ;; put a (Cell (c_prio c) (c_ctx c) (c_exp c) b).
Definition put_ctx (a : nat) (x : ctx T) : M unit :=
  c <~ get a ;; put a (Cell (c_prio c) x (c_exp c) (c_con c)).
Definition put_prio (a : nat) (p : option nat) : M unit :=
  c <~ get a ;; put a (Cell p (c_ctx c) (c_exp c) (c_con c)).

(** [if not o.consumed: o.expected = expected]; core/result.py:43-44,78-79,129-130,132-133,
    core/repair.py:52-53 *)
Definition at_set_exp (x : list string) (a : nat) : M unit :=
  c <~ get a ;; if c_con c then ret tt else put_exp a x.
(** [if not o.consumed: o.expected = Append(expected, o.expected); o.consumed |= consumed];
    core/result.py:49-51,84-86,140-142,144-146, core/repair.py:59-61 *)
Definition at_prepend (x : list string) (con : bool) (a : nat) : M unit :=
  c <~ get a ;;
  if c_con c then ret tt
  else u <~ put_exp a (Append x (c_exp c)) ;;
       c <~ get a ;; put_con a (c_con c || con).

(** core/repair.py:50-61 *)
Definition h_ops_set_expected (ops : list hop) (x : list string) : M unit :=
  iterH (fun o => at_set_exp x (hp_addr o)) ops.
Definition h_ops_prepend_expected (ops : list hop) (x : list string) (con : bool) : M unit :=
  iterH (fun o => at_prepend x con (hp_addr o)) ops.

(** core/result.py:33-36,71-72,111-121  fmap *)
Definition h_ok_fmap {A B} (f : A -> out B) (o : hok A) : M (hok B) :=
  v <~ call (f (hk_val o)) ;; c <~ get (hk_addr o) ;;
  new_ok v (hk_pos o) (c_ctx c) (c_exp c) (c_con c).
Definition h_rep_fmap {A B} (f : A -> out B) (r : hrep A) : M (hrep B) :=
  v <~ call (f (hr_val r)) ;; c <~ get (hr_addr r) ;;
  new_rep (hr_cost r) (c_prio c) (hr_ins r) (hr_ops r) v (hr_pos r) (c_ctx c) (c_exp c) (c_con c).
Definition h_rec_fmap {A B} (f : A -> out B) (r : hrec A) : M (hrec B) :=
  reps <~ mapH (h_rep_fmap f) (hc_reps r) ;; c <~ get (hc_addr r) ;;
  new_rec reps (hc_min r) (hc_loc r) (c_exp c) (c_con c).
Definition hs_fmap {A B} (f : A -> out B) (r : hsres A) : M (hsres B) :=
  match r with
  | HSOk o => o <~ h_ok_fmap f o ;; ret (HSOk o)
  | HSErr e => ret (HSErr e)
  end.
Definition h_fmap {A B} (f : A -> out B) (r : hres A) : M (hres B) :=
  match r with
  | HROk o => o <~ h_ok_fmap f o ;; ret (HROk o)
  | HRErr e => ret (HRErr e)
  | HRRec r => r <~ h_rec_fmap f r ;; ret (HRRec r)
  end.

(** core/result.py:38-40,74-75,123-126  set_ctx *)
Definition hs_set_ctx {A} (c : ctx T) (r : hsres A) : M (hsres A) :=
  match r with
  | HSOk o => u <~ put_ctx (hk_addr o) c ;; ret r
  | HSErr _ => ret r
  end.
Definition h_set_ctx {A} (c : ctx T) (r : hres A) : M (hres A) :=
  match r with
  | HROk o => u <~ put_ctx (hk_addr o) c ;; ret r
  | HRErr _ => ret r
  | HRRec rc => u <~ iterH (fun p => put_ctx (hr_addr p) c) (hc_reps rc) ;; ret r
  end.

(** core/result.py:42-45,77-80,128-135  set_expected *)
Definition hs_set_exp {A} (x : list string) (r : hsres A) : M (hsres A) :=
  u <~ at_set_exp x (hs_addr r) ;; ret r.
Definition h_rep_set_exp {A} (x : list string) (r : hrep A) : M unit :=
  u <~ at_set_exp x (hr_addr r) ;; h_ops_set_expected (hr_ops r) x.
Definition h_set_exp {A} (x : list string) (r : hres A) : M (hres A) :=
  match r with
  | HRRec rc =>
      u <~ at_set_exp x (hc_addr rc) ;;
      u <~ iterH (h_rep_set_exp x) (hc_reps rc) ;; ret r
  | _ => u <~ at_set_exp x (h_addr r) ;; ret r
  end.

(** core/result.py:47-52,82-87,137-148  prepend_expected *)
Definition hs_prepend {A} (x : list string) (con : bool) (r : hsres A) : M (hsres A) :=
  u <~ at_prepend x con (hs_addr r) ;; ret r.
Definition h_rep_prepend {A} (x : list string) (con : bool) (r : hrep A) : M unit :=
  u <~ at_prepend x con (hr_addr r) ;; h_ops_prepend_expected (hr_ops r) x con.
Definition h_prepend {A} (x : list string) (con : bool) (r : hres A) : M (hres A) :=
  match r with
  | HRRec rc =>
      u <~ at_prepend x con (hc_addr rc) ;;
      u <~ iterH (h_rep_prepend x con) (hc_reps rc) ;; ret r
  | _ => u <~ at_prepend x con (h_addr r) ;; ret r
  end.

(** ** core/recovery.py *)

(** core/recovery.py:71-75  _join_ops *)
Definition h_join_ops {A B} (rep : hrep A) (repb : hrep B) : M (list hop) :=
  ops <~ mapH (fun i => c <~ get (hp_addr i) ;; new_op (hp_op i) (hp_loc i) (c_exp c) (c_con c))
              (hr_ops rep) ;;
  c <~ get (hr_addr rep) ;;
  u <~ h_ops_prepend_expected (hr_ops repb) (c_exp c) (c_con c) ;;
  ret (ops ++ hr_ops repb).

(** core/recovery.py:78-83  _append_expected *)
Definition h_append_expected {A} (ra : hrep A) (expected : list string) (consumed : bool)
    : M (list string) :=
  if consumed then ret expected
  else c <~ get (hr_addr ra) ;; ret (Append (c_exp c) expected).

(** core/recovery.py:36-43 *)
Definition h_cont_rec {A B C} (merge : A -> B -> C) (r : hrep A) (rr : hrep B) : M (hrep C) :=
  c <~ get (hr_addr r) ;;
  ops <~ h_join_ops r rr ;;
  cc <~ get (hr_addr rr) ;;
  x <~ h_append_expected r (c_exp cc) (c_con cc) ;;
  c' <~ get (hr_addr r) ;; cc' <~ get (hr_addr rr) ;;
  new_rep (hr_cost r + hr_cost rr) (c_prio c) (hr_ins rr) ops (merge (hr_val r) (hr_val rr))
    (hr_pos rr) (c_ctx cc) x (c_con c' || c_con cc').

(** core/recovery.py:23-43  one iteration *)
Definition h_cont_one {A B C} (ins : Z) (parse : A -> nat -> ctx T -> Z -> M (hres B))
    (merge : A -> B -> C) (r : hrep A) : M (list (hrep C)) :=
  c <~ get (hr_addr r) ;;
  rb <~ parse (hr_val r) (hr_pos r) (c_ctx c) (hr_ins r) ;;
  match rb with
  | HROk o =>
      c <~ get (hr_addr r) ;; co <~ get (hk_addr o) ;;
      x <~ h_append_expected r (c_exp co) (c_con co) ;;
      p <~ new_rep (hr_cost r) (c_prio c) (if Nat.eqb (hr_pos r) (hk_pos o) then hr_ins r else ins)
             (hr_ops r) (merge (hr_val r) (hk_val o)) (hk_pos o) (c_ctx co) x (c_con c || c_con co) ;;
      ret [p]
  | HRRec rb => mapH (h_cont_rec merge r) (hc_reps rb)
  | HRErr _ => ret []
  end.

(** core/recovery.py:18-45  continue_parse *)
Definition h_continue {A B C} (ra : hrec A) (ins : Z) (parse : A -> nat -> ctx T -> Z -> M (hres B))
    (merge : A -> B -> C) : M (hres C) :=
  reps <~ flat_mapH (h_cont_one ins parse merge) (hc_reps ra) ;;
  c <~ get (hc_addr ra) ;;
  r <~ new_rec reps (hc_min ra) (hc_loc ra) (c_exp c) (c_con c) ;; ret (HRRec r).

(** core/recovery.py:48-68  join_repairs; [keep] filters on the current [prio] *)
Fixpoint h_filter {A} (keep : option nat -> bool) (l : list (hrep A)) : M (list (hrep A)) :=
  match l with
  | [] => ret []
  | r :: l =>
      c <~ get (hr_addr r) ;; l' <~ h_filter keep l ;;
      ret (if keep (c_prio c) then r :: l' else l')
  end.
Definition h_join_repairs {A} (ra rb : hrec A) : M (hrec A) :=
  pm <~ match hc_min ra with
        | Some mp =>
            l <~ h_filter (fun p => match p with Some p => Nat.ltb p mp | None => false end)
                   (hc_reps rb) ;;
            ret (hc_reps ra ++ l,
                 match hc_min rb with
                 | Some mb => if Nat.ltb mb mp then Some mb else Some mp
                 | None => Some mp
                 end)
        | None =>
            l <~ h_filter (fun p => match p with Some _ => true | None => false end) (hc_reps rb) ;;
            ret (hc_reps ra ++ l, hc_min rb)
        end ;;
  ca <~ get (hc_addr ra) ;;
  if c_con ca then new_rec (fst pm) (snd pm) (hc_loc ra) (c_exp ca) true
  else
    cb <~ get (hc_addr rb) ;;
    if c_con cb then new_rec (fst pm) (snd pm) (hc_loc rb) (c_exp cb) true
    else new_rec (fst pm) (snd pm) (hc_loc ra) (Append (c_exp ca) (c_exp cb)) (c_con ca || c_con cb).

(** ** Parsing functions *)
Definition hpfast (A : Type) : Type := list T -> nat -> ctx T -> M (hsres A).
Definition hpfull (A : Type) : Type := list T -> nat -> ctx T -> Z -> option Z -> M (hres A).

Definition s_ok {A} (v : A) (pos : nat) (c : ctx T) (x : list string) (con : bool) : M (hsres A) :=
  o <~ new_ok v pos c x con ;; ret (HSOk o).
Definition s_err {A} (l : loc) (x : list string) (con : bool) : M (hsres A) :=
  e <~ new_err l x con ;; ret (HSErr e).
Definition f_ok {A} (v : A) (pos : nat) (c : ctx T) (x : list string) (con : bool) : M (hres A) :=
  o <~ new_ok v pos c x con ;; ret (HROk o).
Definition f_err {A} (l : loc) (x : list string) (con : bool) : M (hres A) :=
  e <~ new_err l x con ;; ret (HRErr e).
Definition f_rec {A} (reps : list (hrep A)) (min : option nat) (l : loc) (x : list string) (con : bool)
    : M (hres A) :=
  r <~ new_rec reps min l x con ;; ret (HRRec r).

(** core/sequence.py:22-40  _eof *)
Definition h_eof_full : hpfull unit :=
  fun s pos c ins rem =>
    if Nat.eqb pos (List.length s) then f_ok tt pos c [] false
    else match rem with
    | None => f_err (get_loc c s pos) [eof_label] false
    | Some _ =>
        let l := get_loc c s pos in
        let sl := List.length s in
        p <~ h_make_pending_skip ins tt sl c l (sl - pos) [eof_label] ;;
        f_rec [p] None l [eof_label] false
    end.
(** core/sequence.py:60-86  _satisfy *)
Definition h_satisfy_full (test : T -> out bool) : hpfull T :=
  fun s pos c ins rem =>
    r <~ call (probe_tok test s pos) ;;
    match r with
    | Some t => f_ok t (pos + 1) c [] true
    | None =>
        match rem with
        | None => f_err (get_loc c s pos) [] false
        | Some _ =>
            let l := get_loc c s pos in
            f <~ call (skip_search s pos (probe_tok test s)) ;;
            match f with
            | Some (cur, t) =>
                p <~ h_make_skip ins t (cur + 1) (update_loc c s (cur + 1)) l (cur - pos) [] ;;
                f_rec [p] (Some (cur - pos)) l [] false
            | None => f_err l [] false
            end
        end
    end.
(** core/sequence.py:106-134  _sym *)
Definition h_sym_full (teq : T -> T -> bool) (x : T) (label : string) : hpfull T :=
  fun s pos c ins rem =>
    r <~ call (probe_sym teq x s pos) ;;
    match r with
    | Some t => f_ok t (pos + 1) c [] true
    | None =>
        match rem with
        | None => f_err (get_loc c s pos) [label] false
        | Some m =>
            let l := get_loc c s pos in
            reps <~ (if Z.eqb m 0 then ret []
                     else p <~ h_make_insert m x pos c l label [label] ;; ret [p]) ;;
            f <~ call (skip_search s pos (probe_sym teq x s)) ;;
            match f with
            | Some (cur, t) =>
                p <~ h_make_skip ins t (cur + 1) (update_loc c s (cur + 1)) l (cur - pos) [label] ;;
                f_rec (reps ++ [p]) (Some (cur - pos)) l [label] false
            | None => f_rec reps None l [label] false
            end
        end
    end.
(** core/scannerless.py:36-65  _literal *)
Definition h_literal_full (teq : T -> T -> bool) (x : list T) (label : string) : hpfull (list T) :=
  fun s pos c ins rem =>
    let ls := List.length x in
    if starts_with teq x s pos then f_ok x (pos + ls) (update_loc c s (pos + ls)) [] true
    else
      match rem with
      | None => f_err (get_loc c s pos) [label] false
      | Some m =>
          let l := get_loc c s pos in
          reps <~ (if Z.eqb m 0 then ret []
                   else p <~ h_make_insert m x pos c l label [label] ;; ret [p]) ;;
          f <~ call (skip_search s pos (probe_lit teq x s)) ;;
          match f with
          | Some (cur, _) =>
              p <~ h_make_skip ins x (cur + ls) (update_loc c s (cur + ls)) l (cur - pos) [label] ;;
              f_rec (reps ++ [p]) (Some (cur - pos)) l [label] false
          | None => f_rec reps None l [label] false
          end
      end.
(** core/scannerless.py:91-124  _regexp *)
Definition h_regexp_full {A} (m : list T -> nat -> option (nat * option A)) : hpfull A :=
  fun s pos c ins rem =>
    match probe_re m s pos with
    | Some (e, v) => f_ok v e (update_loc c s e) [] (negb (Nat.eqb e pos))
    | None =>
        match rem with
        | None => f_err (get_loc c s pos) [] false
        | Some _ =>
            let l := get_loc c s pos in
            f <~ call (skip_search s pos (fun cur => Ret (probe_re m s cur))) ;;
            match f with
            | Some (cur, (e, v)) =>
                p <~ h_make_skip ins v e (update_loc c s e) l (cur - pos) [] ;;
                f_rec [p] (Some (cur - pos)) l [] false
            | None => f_err l [] false
            end
        end
    end.

(** The fast functions of the primitives (core/primitive.py, core/sequence.py:11-19,47-57,
    93-103, core/scannerless.py:23-33,75-88), and the full ones of pure, pure_fn and
    unexpected, only build one fresh object: [o] is the object built. *)
Definition h_fresh_s {A} (o : out (sres T A)) : M (hsres A) :=
  r <~ call o ;;
  match r with
  | SOk o => s_ok (ok_val o) (ok_pos o) (ok_ctx o) (ok_exp o) (ok_con o)
  | SErr e => s_err (er_loc e) (er_exp e) (er_con e)
  end.
Definition h_fresh_f {A} (o : out (sres T A)) : M (hres A) :=
  r <~ h_fresh_s o ;; ret (hsres_res r).

(** core/combinators.py:40-58  _alt_fast *)
Definition h_alt_fast {A} (p q : hpfast A) : hpfast A :=
  fun s pos c =>
    ra <~ p s pos c ;;
    match ra with
    | HSOk _ => ret ra
    | HSErr ea =>
        ca <~ get (he_addr ea) ;;
        if c_con ca then ret ra
        else
          rb <~ q s pos c ;;
          cb <~ get (hs_addr rb) ;;
          if c_con cb then ret rb
          else
            ca <~ get (he_addr ea) ;;
            let expected := Append (c_exp ca) (c_exp cb) in
            match rb with
            | HSOk _ => hs_set_exp expected rb
            | HSErr _ => s_err (he_loc ea) expected false
            end
    end.

(** core/combinators.py:79-90 *)
Definition h_alt_recover {A} (p q : hpfull A) (la : loc) (expected : list string) : hpfull A :=
  fun s pos c ins rem =>
    match rem with
    | None => f_err la expected false
    | Some _ =>
        rra <~ p s pos c ins rem ;;
        rrb <~ q s pos c ins rem ;;
        match rra with
        | HRRec a =>
            match rrb with
            | HRRec b => j <~ h_join_repairs a b ;; h_set_exp expected (HRRec j)
            | _ => h_set_exp expected rra
            end
        | _ =>
            match rrb with
            | HRRec _ => h_set_exp expected rrb
            | _ => f_err la expected false
            end
        end
    end.

(** core/combinators.py:61-90  _alt *)
Definition h_alt_full {A} (p q : hpfull A) : hpfull A :=
  fun s pos c ins rem =>
    ra <~ p s pos c ins None ;;
    match ra with
    | HROk _ => ret ra
    | HRErr {| he_loc := la; he_addr := aa |}
    | HRRec {| hc_loc := la; hc_addr := aa |} =>
        ca <~ get aa ;;
        if c_con ca then ret ra
        else
          rb <~ q s pos c ins None ;;
          cb <~ get (h_addr rb) ;;
          if c_con cb then ret rb
          else
            ca <~ get aa ;;
            let expected := Append (c_exp ca) (c_exp cb) in
            match rb with
            | HROk _ => h_set_exp expected rb
            | _ => h_alt_recover p q la expected s pos c ins rem
            end
    end.

(** core/combinators.py:102-115  _bind_fast *)
Definition h_bind_fast {A B} (p : hpfast A) (f : A -> hpfast B) : hpfast B :=
  fun s pos c =>
    ra <~ p s pos c ;;
    match ra with
    | HSErr e => ret (HSErr e)
    | HSOk oa =>
        ca <~ get (hk_addr oa) ;;
        rb <~ f (hk_val oa) s (hk_pos oa) (c_ctx ca) ;;
        ca <~ get (hk_addr oa) ;; hs_prepend (c_exp ca) (c_con ca) rb
    end.

(** core/combinators.py:118-143  _bind *)
Definition h_bind_full {A B} (p : hpfull A) (f : A -> hpfull B) : hpfull B :=
  fun s pos c ins rem =>
    ra <~ p s pos c ins rem ;;
    match ra with
    | HRErr e => ret (HRErr e)
    | HRRec ra =>
        h_continue ra ins (fun v p c r => f v s p c ins (Some r)) (fun _ v => v)
    | HROk oa =>
        ca <~ get (hk_addr oa) ;;
        rb <~ (if c_con ca then f (hk_val oa) s (hk_pos oa) (c_ctx ca) ins (Some ins)
               else f (hk_val oa) s (hk_pos oa) (c_ctx ca) ins rem) ;;
        ca <~ get (hk_addr oa) ;; h_prepend (c_exp ca) (c_con ca) rb
    end.

(** core/combinators.py:152-169  _seq_h_fast *)
Definition h_seq_fast {A B C} (p : hpfast A) (q : hpfast B) (merge : A -> B -> C) : hpfast C :=
  fun s pos c =>
    ra <~ p s pos c ;;
    match ra with
    | HSErr e => ret (HSErr e)
    | HSOk oa =>
        ca <~ get (hk_addr oa) ;;
        rb <~ q s (hk_pos oa) (c_ctx ca) ;;
        rc <~ hs_fmap (fun vb => Ret (merge (hk_val oa) vb)) rb ;;
        ca <~ get (hk_addr oa) ;; hs_prepend (c_exp ca) (c_con ca) rc
    end.

(** core/combinators.py:172-196  _seq_h *)
Definition h_seq_full {A B C} (p : hpfull A) (q : hpfull B) (merge : A -> B -> C) : hpfull C :=
  fun s pos c ins rem =>
    ra <~ p s pos c ins rem ;;
    match ra with
    | HRErr e => ret (HRErr e)
    | HRRec ra => h_continue ra ins (fun _ p c r => q s p c ins (Some r)) merge
    | HROk oa =>
        ca <~ get (hk_addr oa) ;;
        rb <~ q s (hk_pos oa) (c_ctx ca) ins (if c_con ca then Some ins else rem) ;;
        rc <~ h_fmap (fun vb => Ret (merge (hk_val oa) vb)) rb ;;
        ca <~ get (hk_addr oa) ;; h_prepend (c_exp ca) (c_con ca) rc
    end.

(** core/combinators.py:293-317  maybe returns the result object itself; its value is
    wrapped in [Some] here (as in Combinators.v) *)
Definition h_maybe_fast {A} (p : hpfast A) : hpfast (option A) :=
  fun s pos c =>
    r <~ p s pos c ;;
    cr <~ get (hs_addr r) ;;
    if c_con cr || match r with HSOk _ => true | _ => false end then ret (hs_some r)
    else s_ok None pos c (c_exp cr) false.
Definition h_maybe_full {A} (p : hpfull A) : hpfull (option A) :=
  fun s pos c ins rem =>
    r <~ p s pos c ins None ;;
    cr <~ get (h_addr r) ;;
    if c_con cr || match r with HROk _ => true | _ => false end then ret (h_some r)
    else f_ok None pos c (c_exp cr) false.

(** core/combinators.py:324-372  many *)
Fixpoint h_many_fast {A} (p : hpfast A) (n : nat) (consumed : bool)
    (value : list A) (s : list T) (pos : nat) (c : ctx T) : M (hsres (list A)) :=
  match n with
  | O => call NoFuel
  | S n' =>
      r <~ p s pos c ;;
      cr <~ get (hs_addr r) ;;
      match r with
      | HSOk o =>
          if c_con cr then
            h_many_fast p n' true (value ++ [hk_val o]) s (hk_pos o) (c_ctx cr)
          else call (Raise ManyEmpty)
      | HSErr e =>
          if c_con cr then ret (HSErr e)
          else s_ok value pos c (c_exp cr) consumed
      end
  end.
Fixpoint h_many_full {A} (p : hpfull A) (n : nat) (consumed : bool)
    (value : list A) (s : list T) (pos : nat) (c : ctx T) (ins : Z) : M (hres (list A)) :=
  match n with
  | O => call NoFuel
  | S n' =>
      r <~ p s pos c ins None ;;
      match r with
      | HROk o =>
          cr <~ get (hk_addr o) ;;
          if c_con cr then
            h_many_full p n' true (value ++ [hk_val o]) s (hk_pos o) (c_ctx cr) ins
          else call (Raise ManyEmpty)
      | HRRec r =>
          h_continue r ins (fun _ p' c' _ => h_many_full p n' false [] s p' c' ins)
            (fun a b => value ++ a :: b)
      | HRErr e =>
          cr <~ get (he_addr e) ;;
          if c_con cr then ret (HRErr e)
          else f_ok value pos c (c_exp cr) consumed
      end
  end.

(** core/combinators.py:379-405  attempt *)
Definition h_attempt_fast {A} (p : hpfast A) : hpfast A :=
  fun s pos c =>
    r <~ p s pos c ;;
    match r with
    | HSErr e => ce <~ get (he_addr e) ;; s_err (he_loc e) (c_exp ce) false
    | HSOk o => ret (HSOk o)
    end.
Definition h_attempt_full {A} (pf : hpfast A) (p : hpfull A) : hpfull A :=
  fun s pos c ins rem =>
    match rem with
    | Some _ => p s pos c ins rem
    | None => r <~ h_attempt_fast pf s pos c ;; ret (hsres_res r)
    end.

(** core/combinators.py:443-464  recover *)
Definition h_rep_set_prio {A} (r : hrep A) : M unit :=
  c <~ get (hr_addr r) ;;
  match c_prio c with None => put_prio (hr_addr r) (Some 0) | Some _ => ret tt end.
Definition h_recover_full {A} (p : hpfull A) : hpfull A :=
  fun s pos c ins rem =>
    r <~ p s pos c ins rem ;;
    match r with
    | HRRec rc => u <~ iterH h_rep_set_prio (hc_reps rc) ;; ret r
    | _ => ret r
    end.

(** core/combinators.py:467-534  recover_with, recover_with_fn *)
Definition h_recover_with_full {A} (p : hpfull A) (mk : list T -> nat -> out A)
    (lab : A -> string) : hpfull A :=
  fun s pos c ins rem =>
    match rem with
    | None => p s pos c ins None
    | Some m =>
        r <~ p s pos c ins (Some m) ;;
        match r with
        | HROk _ => ret r
        | _ =>
            cr <~ get (h_addr r) ;;
            if c_con cr then ret r
            else if Z.eqb m 0 then ret r
            else
              x <~ call (mk s pos) ;;
              let l := get_loc c s pos in
              rep <~ h_make_user_insert m x pos c l (lab x) (c_exp cr) ;;
              match r with
              | HRRec r => f_rec (rep :: hc_reps r) (hc_min r) l (c_exp cr) false
              | _ => f_rec [rep] None l [] false
              end
        end
    end.

(** core/layout.py *)
Definition h_block_fast {A} (p : hpfast A) : hpfast A :=
  fun s pos c =>
    let c := update_loc c s pos in
    r <~ p s pos (set_mark c (loc_col (ctx_loc c))) ;; hs_set_ctx c r.
Definition h_block_full {A} (p : hpfull A) : hpfull A :=
  fun s pos c ins rem =>
    let c := update_loc c s pos in
    r <~ p s pos (set_mark c (loc_col (ctx_loc c))) ins rem ;; h_set_ctx c r.
Definition h_aligned_fast {A} (p : hpfast A) : hpfast A :=
  fun s pos c =>
    let c := update_loc c s pos in
    if Z.eqb (ctx_mark c) (loc_col (ctx_loc c)) then p s pos c
    else s_err (ctx_loc c) [indentation] false.
Definition h_aligned_full {A} (p : hpfull A) : hpfull A :=
  fun s pos c ins rem =>
    let c := update_loc c s pos in
    if Z.eqb (ctx_mark c) (loc_col (ctx_loc c)) then p s pos c ins rem
    else f_err (ctx_loc c) [indentation] false.
Definition h_indented_fast {A} (delta : Z) (p : hpfast A) : hpfast A :=
  fun s pos c =>
    let c := update_loc c s pos in
    let level := loc_col (ctx_loc c) in
    if Z.eqb (ctx_mark c + delta) level then r <~ p s pos (set_mark c level) ;; hs_set_ctx c r
    else s_err (ctx_loc c) [indentation] false.
Definition h_indented_full {A} (delta : Z) (p : hpfull A) : hpfull A :=
  fun s pos c ins rem =>
    let c := update_loc c s pos in
    let level := loc_col (ctx_loc c) in
    if Z.eqb (ctx_mark c + delta) level then r <~ p s pos (set_mark c level) ins rem ;; h_set_ctx c r
    else f_err (ctx_loc c) [indentation] false.

Context {V : nat -> Type}.
Notation gram := (gram T V).
Notation env := (env T V).

(** the two functions of a parser object (as Grammar.v [fast], [full]) *)
Fixpoint hfast (E : env) (n : nat) {A : Type} (g : gram A)
    (s : list T) (pos : nat) (c : ctx T) {struct n} : M (hsres A) :=
  match n with
  | O => call NoFuel
  | S n =>
      match g in Grammar.gram _ _ A return hpfast A with
      | GPure x => fun s pos c => h_fresh_s (pure_fast x s pos c)
      | GPureFn f => fun s pos c => h_fresh_s (purefn_fast f s pos c)
      | GUnexpected l => fun s pos c => h_fresh_s (unexpected_fast l s pos c)
      | GEof => fun s pos c => h_fresh_s (eof_fast s pos c)
      | GSatisfy test => fun s pos c => h_fresh_s (satisfy_fast test s pos c)
      | GSym teq x l => fun s pos c => h_fresh_s (sym_fast teq x l s pos c)
      | GLiteral teq x l => fun s pos c => h_fresh_s (literal_fast teq x l s pos c)
      | GRegexp m => fun s pos c => h_fresh_s (regexp_fast m s pos c)
      | GFmap p f => fun s pos c => r <~ hfast E n p s pos c ;; hs_fmap f r
      | GAlt p q => h_alt_fast (hfast E n p) (hfast E n q)
      | GBind p f => h_bind_fast (hfast E n p) (fun v => hfast E n (f v))
      | GSeq p q merge => h_seq_fast (hfast E n p) (hfast E n q) merge
      | GMaybe p => h_maybe_fast (hfast E n p)
      | GMany p => h_many_fast (hfast E n p) n false []
      | GAttempt p => h_attempt_fast (hfast E n p)
      | GLabel p x => fun s pos c => r <~ hfast E n p s pos c ;; hs_set_exp [x] r
      | GRecover p => hfast E n p
      | GRecoverWith p _ _ => hfast E n p
      | GRecoverWithFn p _ _ => hfast E n p
      | GBlock p => h_block_fast (hfast E n p)
      | GAligned p => h_aligned_fast (hfast E n p)
      | GIndented d p => h_indented_fast d (hfast E n p)
      | GDelay d => hfast E n (E d)
      | GUndef => fun _ _ _ => call (Raise DelayUndefined)
      end s pos c
  end.

Fixpoint hfull (E : env) (n : nat) {A : Type} (g : gram A)
    (s : list T) (pos : nat) (c : ctx T) (ins : Z) (rem : option Z) {struct n} : M (hres A) :=
  match n with
  | O => call NoFuel
  | S n =>
      match g in Grammar.gram _ _ A return hpfull A with
      | GPure x => fun s pos c _ _ => h_fresh_f (pure_fast x s pos c)
      | GPureFn f => fun s pos c _ _ => h_fresh_f (purefn_fast f s pos c)
      | GUnexpected l => fun s pos c _ _ => h_fresh_f (unexpected_fast l s pos c)
      | GEof => h_eof_full
      | GSatisfy test => h_satisfy_full test
      | GSym teq x l => h_sym_full teq x l
      | GLiteral teq x l => h_literal_full teq x l
      | GRegexp m => h_regexp_full m
      | GFmap p f => fun s pos c ins rem => r <~ hfull E n p s pos c ins rem ;; h_fmap f r
      | GAlt p q => h_alt_full (hfull E n p) (hfull E n q)
      | GBind p f => h_bind_full (hfull E n p) (fun v => hfull E n (f v))
      | GSeq p q merge => h_seq_full (hfull E n p) (hfull E n q) merge
      | GMaybe p => h_maybe_full (hfull E n p)
      | GMany p => fun s pos c ins rem => h_many_full (hfull E n p) n false [] s pos c ins
      | GAttempt p => h_attempt_full (hfast E n p) (hfull E n p)
      | GLabel p x => fun s pos c ins rem => r <~ hfull E n p s pos c ins rem ;; h_set_exp [x] r
      | GRecover p => h_recover_full (hfull E n p)
      | GRecoverWith p x l => h_recover_with_full (hfull E n p) (fun _ _ => Ret x) (fun _ => l)
      | GRecoverWithFn p fn lab => h_recover_with_full (hfull E n p) fn lab
      | GBlock p => h_block_full (hfull E n p)
      | GAligned p => h_aligned_full (hfull E n p)
      | GIndented d p => h_indented_full d (hfull E n p)
      | GDelay d => hfull E n (E d)
      | GUndef => fun _ _ _ _ _ => call (Raise DelayUndefined)
      end s pos c ins rem
  end.

(** ** The API *)


(** parser.py:30-55  Parser.parse *)
Definition hparse {A} (E : env) (n : nat) (g : gram A) (s : list T)
    (recover : bool) (max_insertions : Z)
    (getl : loc -> list T -> nat -> loc) (fmt : loc -> string) : M (hpresult A) :=
  let c := init_ctx getl in
  result <~
    (if recover then hfull E n g s 0 c max_insertions (Some max_insertions)
     else r <~ hfast E n g s 0 c ;; ret (hsres_res r)) ;;
  ret (HResultWrapper result fmt).

(** types.py:106-107  ResultWrapper.fmap *)
Definition hpresult_fmap {A B} (f : A -> out B) (r : hpresult A) : M (hpresult B) :=
  r' <~ h_fmap f (hpr_result r) ;; ret (HResultWrapper r' (hpr_fmt r)).

(** types.py:131-134  [min(repairs, key=...)] reads [prio] of the repairs *)
Fixpoint h_py_min {A} (best : hrep A * option nat) (l : list (hrep A)) : M (hrep A) :=
  match l with
  | [] => ret (fst best)
  | x :: l' =>
      c <~ get (hr_addr x) ;;
      h_py_min (if h_key_lt (x, c_prio c) best then (x, c_prio c) else best) l'
  end.

(** types.py:109-142  ResultWrapper.unwrap *)
Definition hunwrap {A} (r : hpresult A) (recover : bool) : M (unwrapped A) :=
  match hpr_result r with
  | HROk o => ret (Returns (hk_val o))
  | HRErr e =>
      c <~ get (he_addr e) ;;
      ret (Raises [ErrorItem (he_loc e) (hpr_fmt r (he_loc e)) (c_exp c) None])
  | HRRec rc =>
      match hc_reps rc with
      | [] =>
          c <~ get (hc_addr rc) ;;
          ret (Raises [ErrorItem (hc_loc rc) (hpr_fmt r (hc_loc rc)) (c_exp c) None])
      | x :: l =>
          c <~ get (hr_addr x) ;;
          rep <~ h_py_min (x, c_prio c) l ;;
          if recover then ret (Returns (hr_val rep))
          else
            errors <~ mapH (fun i => c <~ get (hp_addr i) ;;
                             ret (ErrorItem (hp_loc i) (hpr_fmt r (hp_loc i)) (c_exp c) (Some (hp_op i))))
                        (hr_ops rep) ;;
            ret (Raises errors)
      end
  end.

End Gen.
