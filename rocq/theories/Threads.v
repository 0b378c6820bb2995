(** Several threads that use the library at the same time.  A thread is a
    program in the statements of HeapGen.v; it is run one statement on the heap
    (allocate, read or write an object) at a time, and between any two of them
    other threads may run theirs on the same heap.

    Simplifications: a statement reads or writes all attributes of an object at
    once, where Python touches them one by one (the theorems say that no other
    thread touches the object, so this makes no difference); parser objects
    (immutable, apart from Delays, which are defined before the threads start)
    and the input are values; callbacks have no side effects (as in Heap.v). *)
From Verif Require Export HeapSpec HeapGen.

Section Threads.
Context {T : Type}.

(** what is left to do of a thread *)
Inductive prog (X : Type) : Type :=
| PDone (o : out X)                                (* returned or raised *)
| PNew (c : cell T) (k : nat -> prog X)
| PGet (a : nat) (k : cell T -> prog X)
| PPut (a : nat) (c : cell T) (k : prog X).
Arguments PDone {X}. Arguments PNew {X}. Arguments PGet {X}. Arguments PPut {X}.
Fixpoint pbind {X Y} (p : prog X) (f : X -> prog Y) : prog Y :=
  match p with
  | PDone (Ret x) => f x
  | PDone (Raise e) => PDone (Raise e)
  | PDone NoFuel => PDone NoFuel
  | PNew c k => PNew c (fun a => pbind (k a) f)
  | PGet a k => PGet a (fun c => pbind (k c) f)
  | PPut a c k => PPut a c (pbind k f)
  end.
Definition prog_sem : sem T :=
  Sem T prog (fun X x => PDone (Ret x)) (fun X o => PDone o) (@pbind)
    (fun c => PNew c (fun a => PDone (Ret a))) (fun a => PGet a (fun c => PDone (Ret c)))
    (fun a c => PPut a c (PDone (Ret tt))).

(** ** What threads do: they parse, and use [fmap] and [unwrap] of results, in
    any order (parser.py:30-55, types.py:101-142).  [G] lists the types of the results a
    thread has at hand, the latest first. *)
Inductive var : list Type -> Type -> Type :=
| Here {G A} : var (A :: G) A
| There {G A B} (v : var G A) : var (B :: G) A.
Inductive client (X : Type) : list Type -> Type :=
| Finish {G} (o : out X) : client X G
| Parse {G V A} (E : env T V) (n : nat) (g : gram T V A) (s : list T) (recover : bool) (k : Z)
    (getl : loc -> list T -> nat -> loc) (fmt : loc -> string) (next : client X (A :: G)) : client X G
| Fmap {G A B} (v : var G A) (f : A -> out B) (next : client X (B :: G)) : client X G
| Unwrap {G A} (v : var G A) (recover : bool) (next : unwrapped A -> client X G) : client X G.
Arguments Finish {X G}. Arguments Parse {X G V A}. Arguments Fmap {X G A B}. Arguments Unwrap {X G A}.

(** the results at hand, as references *)
Fixpoint refs (G : list Type) : Type := match G with [] => unit | A :: G => (hpresult A * refs G)%type end.
Fixpoint ref {G A} (v : var G A) : refs G -> hpresult A :=
  match v in var G A return refs G -> hpresult A with
  | Here => fun e => fst e
  | There v => fun e => ref v (snd e)
  end.
(** the code a thread runs: that of HeapGen.v *)
Fixpoint code (sm : sem T) {X G} (p : client X G) : refs G -> sM sm X :=
  match p in client _ G return refs G -> sM sm X with
  | Finish o => fun _ => scall sm o
  | Parse E n g s rec k getl fmt next => fun e => sbind sm (hparse sm E n g s rec k getl fmt) (fun r => code sm next (r, e))
  | Fmap v f next => fun e => sbind sm (hpresult_fmap sm f (ref v e)) (fun r => code sm next (r, e))
  | Unwrap v rec next => fun e => sbind sm (hunwrap sm (ref v e) rec) (fun u => code sm (next u) e)
  end.

(** ** Running threads: a heap, and what is left of each thread *)
Definition pool (X : Type) : Type := nat -> prog X.
Definition set_thread {X} (ts : pool X) (i : nat) (p : prog X) : pool X := fun j => if Nat.eqb j i then p else ts j.
(** thread [i] runs one statement (if it is not done) *)
Definition step1 {X} (st : heap T * pool X) (i : nat) : heap T * pool X :=
  let '(h, ts) := st in
  match ts i with
  | PDone _ => st
  | PNew c k => (new_cell h c, set_thread ts i (k (h_next h)))
  | PGet a k => (h, set_thread ts i (k (h_cell h a)))
  | PPut a c k => (set_cell h a c, set_thread ts i k)
  end.
(** the threads take turns as [schedule] says *)
Fixpoint run_threads {X} (st : heap T * pool X) (schedule : list nat) : heap T * pool X :=
  match schedule with
  | [] => st
  | i :: l => run_threads (step1 st i) l
  end.
(** the same with an infinite schedule, up to time [t] *)
Fixpoint run_upto {X} (st : heap T * pool X) (schedule : nat -> nat) (t : nat) : heap T * pool X :=
  match t with
  | O => st
  | S t => step1 (run_upto st schedule t) (schedule t)
  end.

(** ** Specification: what a thread returns when results are values *)
Fixpoint values (G : list Type) : Type := match G with [] => unit | A :: G => (presult T A * values G)%type end.
Fixpoint value {G A} (v : var G A) : values G -> presult T A :=
  match v in var G A return values G -> presult T A with
  | Here => fun e => fst e
  | There v => fun e => value v (snd e)
  end.
Fixpoint alone {X G} (p : client X G) : values G -> out X :=
  match p in client _ G return values G -> out X with
  | Finish o => fun _ => o
  | Parse E n g s rec k getl fmt next => fun e =>
      r <- parse E n g s rec k getl fmt ;; alone next (r, e)
  | Fmap v f next => fun e => r <- presult_fmap f (value v e) ;; alone next (r, e)
  | Unwrap v rec next => fun e => alone (next (unwrap (value v e) rec)) e
  end.
(** the values of references in a heap; references to existing objects *)
Fixpoint read (h : heap T) {G} : refs G -> values G :=
  match G return refs G -> values G with
  | [] => fun e => e
  | A :: G => fun e => (rd_p h (fst e), read h (snd e))
  end.
Fixpoint existing (h : heap T) {G} : refs G -> Prop :=
  match G return refs G -> Prop with
  | [] => fun _ => True
  | A :: G => fun e => (forall a, In a (addrs (hpr_result (fst e))) -> a < h_next h) /\ existing h (snd e)
  end.
End Threads.
Arguments prog T X : clear implicits.
Arguments PDone {T X}. Arguments PNew {T X}. Arguments PGet {T X}. Arguments PPut {T X}.
Arguments client T X G : clear implicits.
Arguments Finish {T X G}. Arguments Parse {T X G V A}. Arguments Fmap {T X G A B}. Arguments Unwrap {T X G A}.
Arguments pool T X : clear implicits.
Arguments prog_sem T : clear implicits.
Arguments values T G : clear implicits.
