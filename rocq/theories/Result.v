(** Model of src/reparsec/core/result.py.
    The [set_*]/[prepend_*] methods mutate the result in place and return it;
    here they return the new value (see Heap.v for the in-place version). *)
From Verif Require Export Repair.

Section Result.
Context {T : Type}.

(** core/result.py:15-26  class Ok *)
Record okr (A : Type) : Type := Ok {
  ok_val : A;
  ok_pos : nat;
  ok_ctx : ctx T;
  ok_exp : list string;
  ok_con : bool
}.
Arguments Ok {A}. Arguments ok_val {A}. Arguments ok_pos {A}.
Arguments ok_ctx {A}. Arguments ok_exp {A}. Arguments ok_con {A}.

(** core/result.py:55-64  class Error *)
Record errr : Type := Err {
  er_loc : loc;
  er_exp : list string;
  er_con : bool
}.

(** core/result.py:90-101  class Recovered *)
Record recr (A : Type) : Type := Recd {
  rc_reps : list (repair T A);
  rc_min : option nat;
  rc_loc : loc;
  rc_exp : list string;
  rc_con : bool
}.
Arguments Recd {A}. Arguments rc_reps {A}. Arguments rc_min {A}.
Arguments rc_loc {A}. Arguments rc_exp {A}. Arguments rc_con {A}.

(** core/result.py:151  SimpleResult = Union[Ok, Error] *)
Inductive sres (A : Type) : Type :=
| SOk (o : okr A)
| SErr (e : errr).
Arguments SOk {A}. Arguments SErr {A}.

(** core/result.py:152  Result = Union[SimpleResult, Recovered] *)
Inductive res (A : Type) : Type :=
| ROk (o : okr A)
| RErr (e : errr)
| RRec (r : recr A).
Arguments ROk {A}. Arguments RErr {A}. Arguments RRec {A}.

(** A SimpleResult used where a Result is expected. *)
Definition sres_res {A} (r : sres A) : res A :=
  match r with SOk o => ROk o | SErr e => RErr e end.

(** the [.consumed] attribute common to all three classes *)
Definition sres_con {A} (r : sres A) : bool :=
  match r with SOk o => ok_con o | SErr e => er_con e end.
Definition res_con {A} (r : res A) : bool :=
  match r with ROk o => ok_con o | RErr e => er_con e | RRec r => rc_con r end.

(** core/result.py:33-36  Ok.fmap; the callback may raise *)
Definition ok_fmap {A B} (f : A -> out B) (o : okr A) : out (okr B) :=
  v <- f (ok_val o) ;;
  Ret (Ok v (ok_pos o) (ok_ctx o) (ok_exp o) (ok_con o)).

(** core/result.py:38-40  Ok.set_ctx *)
Definition ok_set_ctx {A} (c : ctx T) (o : okr A) : okr A :=
  Ok (ok_val o) (ok_pos o) c (ok_exp o) (ok_con o).

(** core/result.py:42-45  Ok.set_expected *)
Definition ok_set_exp {A} (e : list string) (o : okr A) : okr A :=
  if ok_con o then o else Ok (ok_val o) (ok_pos o) (ok_ctx o) e (ok_con o).

(** core/result.py:47-52  Ok.prepend_expected *)
Definition ok_prepend {A} (e : list string) (c : bool) (o : okr A) : okr A :=
  if ok_con o then o
  else Ok (ok_val o) (ok_pos o) (ok_ctx o) (Append e (ok_exp o)) (ok_con o || c).

(** core/result.py:77-80  Error.set_expected *)
Definition er_set_exp (x : list string) (e : errr) : errr :=
  if er_con e then e else Err (er_loc e) x (er_con e).

(** core/result.py:82-87  Error.prepend_expected *)
Definition er_prepend (x : list string) (c : bool) (e : errr) : errr :=
  if er_con e then e
  else Err (er_loc e) (Append x (er_exp e)) (er_con e || c).

(** core/result.py:114-117  the Repair copied by Recovered.fmap *)
Definition rep_fmap {A B} (f : A -> out B) (r : repair T A) : out (repair T B) :=
  v <- f (r_val r) ;;
  Ret (Repair (r_cost r) (r_prio r) (r_ins r) (r_ops r) v (r_pos r) (r_ctx r)
         (r_exp r) (r_con r)).

(** core/result.py:111-121  Recovered.fmap *)
Definition rec_fmap {A B} (f : A -> out B) (r : recr A) : out (recr B) :=
  reps <- mapM (rep_fmap f) (rc_reps r) ;;
  Ret (Recd reps (rc_min r) (rc_loc r) (rc_exp r) (rc_con r)).

(** core/result.py:124-125 *)
Definition rep_set_ctx {A} (c : ctx T) (r : repair T A) : repair T A :=
  Repair (r_cost r) (r_prio r) (r_ins r) (r_ops r) (r_val r) (r_pos r) c
    (r_exp r) (r_con r).

(** core/result.py:123-126  Recovered.set_ctx *)
Definition rec_set_ctx {A} (c : ctx T) (r : recr A) : recr A :=
  Recd (map (rep_set_ctx c) (rc_reps r)) (rc_min r) (rc_loc r) (rc_exp r)
    (rc_con r).

(** core/result.py:132-134 *)
Definition rep_set_exp {A} (x : list string) (r : repair T A) : repair T A :=
  Repair (r_cost r) (r_prio r) (r_ins r) (ops_set_expected (r_ops r) x)
    (r_val r) (r_pos r) (r_ctx r)
    (if r_con r then r_exp r else x) (r_con r).

(** core/result.py:128-135  Recovered.set_expected *)
Definition rec_set_exp {A} (x : list string) (r : recr A) : recr A :=
  Recd (map (rep_set_exp x) (rc_reps r)) (rc_min r) (rc_loc r)
    (if rc_con r then rc_exp r else x) (rc_con r).

(** core/result.py:144-147 *)
Definition rep_prepend {A} (x : list string) (c : bool) (r : repair T A)
    : repair T A :=
  Repair (r_cost r) (r_prio r) (r_ins r) (ops_prepend_expected (r_ops r) x c)
    (r_val r) (r_pos r) (r_ctx r)
    (if r_con r then r_exp r else Append x (r_exp r))
    (if r_con r then r_con r else r_con r || c).

(** core/result.py:137-148  Recovered.prepend_expected *)
Definition rec_prepend {A} (x : list string) (c : bool) (r : recr A) : recr A :=
  Recd (map (rep_prepend x c) (rc_reps r)) (rc_min r) (rc_loc r)
    (if rc_con r then rc_exp r else Append x (rc_exp r))
    (if rc_con r then rc_con r else rc_con r || c).

(** Dynamic dispatch of the methods on SimpleResult and Result
    (Error.fmap and Error.set_ctx return self, core/result.py:71-75). *)
Definition sres_fmap {A B} (f : A -> out B) (r : sres A) : out (sres B) :=
  match r with
  | SOk o => o' <- ok_fmap f o ;; Ret (SOk o')
  | SErr e => Ret (SErr e)
  end.
Definition sres_set_ctx {A} (c : ctx T) (r : sres A) : sres A :=
  match r with SOk o => SOk (ok_set_ctx c o) | SErr e => SErr e end.
Definition sres_set_exp {A} (x : list string) (r : sres A) : sres A :=
  match r with SOk o => SOk (ok_set_exp x o) | SErr e => SErr (er_set_exp x e) end.
Definition sres_prepend {A} (x : list string) (c : bool) (r : sres A) : sres A :=
  match r with
  | SOk o => SOk (ok_prepend x c o) | SErr e => SErr (er_prepend x c e)
  end.

Definition res_fmap {A B} (f : A -> out B) (r : res A) : out (res B) :=
  match r with
  | ROk o => o' <- ok_fmap f o ;; Ret (ROk o')
  | RErr e => Ret (RErr e)
  | RRec r => r' <- rec_fmap f r ;; Ret (RRec r')
  end.
Definition res_set_ctx {A} (c : ctx T) (r : res A) : res A :=
  match r with
  | ROk o => ROk (ok_set_ctx c o) | RErr e => RErr e
  | RRec r => RRec (rec_set_ctx c r)
  end.
Definition res_set_exp {A} (x : list string) (r : res A) : res A :=
  match r with
  | ROk o => ROk (ok_set_exp x o) | RErr e => RErr (er_set_exp x e)
  | RRec r => RRec (rec_set_exp x r)
  end.
Definition res_prepend {A} (x : list string) (c : bool) (r : res A) : res A :=
  match r with
  | ROk o => ROk (ok_prepend x c o) | RErr e => RErr (er_prepend x c e)
  | RRec r => RRec (rec_prepend x c r)
  end.

End Result.
Arguments okr T A : clear implicits.
Arguments recr T A : clear implicits.
Arguments sres T A : clear implicits.
Arguments res T A : clear implicits.
Arguments Ok {T A}. Arguments ok_val {T A}. Arguments ok_pos {T A}.
Arguments ok_ctx {T A}. Arguments ok_exp {T A}. Arguments ok_con {T A}.
Arguments Recd {T A}. Arguments rc_reps {T A}. Arguments rc_min {T A}.
Arguments rc_loc {T A}. Arguments rc_exp {T A}. Arguments rc_con {T A}.
Arguments SOk {T A}. Arguments SErr {T A}.
Arguments ROk {T A}. Arguments RErr {T A}. Arguments RRec {T A}.

(** core/parser.py:14-21  ParseFastFn, ParseFn.  [rem = None] means that
    recovery must not start before input is consumed. *)
Definition pfast (T A : Type) : Type :=
  list T -> nat -> ctx T -> out (sres T A).
Definition pfull (T A : Type) : Type :=
  list T -> nat -> ctx T -> Z -> option Z -> out (res T A).
