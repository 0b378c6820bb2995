(** Model of src/reparsec/core/primitive.py, core/sequence.py and
    core/scannerless.py (parsers; the location function is in [Api.v]). *)
From Verif Require Export Recovery.

Section Prims.
Context {T : Type}.

(** core/primitive.py:11-23  Pure *)
Definition pure_fast {A} (x : A) : pfast T A :=
  fun s pos c => Ret (SOk (Ok x pos c [] false)).
Definition pure_full {A} (x : A) : pfull T A :=
  fun s pos c ins rem => Ret (ROk (Ok x pos c [] false)).

(** core/primitive.py:26-38  PureFn; the callback may raise *)
Definition purefn_fast {A} (f : unit -> out A) : pfast T A :=
  fun s pos c => x <- f tt ;; Ret (SOk (Ok x pos c [] false)).
Definition purefn_full {A} (f : unit -> out A) : pfull T A :=
  fun s pos c ins rem => x <- f tt ;; Ret (ROk (Ok x pos c [] false)).

(** core/primitive.py:41-60  unexpected (any value type, it never succeeds) *)
Definition unexpected_fast {A} (expected : string) : pfast T A :=
  fun s pos c => Ret (SErr (Err (get_loc c s pos) [expected] false)).
Definition unexpected_full {A} (expected : string) : pfull T A :=
  fun s pos c ins rem => Ret (RErr (Err (get_loc c s pos) [expected] false)).

(** The label of eof, core/sequence.py:17,29,35,37 *)
Definition eof_label : string := "end of file".

(** core/sequence.py:11-19  _eof_fast *)
Definition eof_fast : pfast T unit :=
  fun s pos c =>
    if Nat.eqb pos (List.length s) then Ret (SOk (Ok tt pos c [] false))
    else Ret (SErr (Err (get_loc c s pos) [eof_label] false)).

(** core/sequence.py:22-40  _eof *)
Definition eof_full : pfull T unit :=
  fun s pos c ins rem =>
    if Nat.eqb pos (List.length s) then Ret (ROk (Ok tt pos c [] false))
    else match rem with
    | None => Ret (RErr (Err (get_loc c s pos) [eof_label] false))
    | Some _ =>
        let l := get_loc c s pos in
        let sl := List.length s in
        Ret (RRec (Recd [make_pending_skip ins tt sl c l (sl - pos) [eof_label]]
               None l [eof_label] false))
    end.

(** The loop [cur = pos + 1; while cur < len(stream): if <match at cur>:
    return ...; cur += 1] of core/sequence.py:71-83,120-131 and
    core/scannerless.py:52-62,106-121.  [probe cur] is the match attempt; [k]
    is the number of iterations left, [len(stream) - cur] on entry. *)
Fixpoint skip_loop {X} (probe : nat -> out (option X)) (k cur : nat)
    : out (option (nat * X)) :=
  match k with
  | O => Ret None
  | S k' =>
      r <- probe cur ;;
      match r with
      | Some x => Ret (Some (cur, x))
      | None => skip_loop probe k' (S cur)
      end
  end.

(** the loop started at [pos + 1] over stream [s] *)
Definition skip_search {X} (s : list T) (pos : nat)
    (probe : nat -> out (option X)) : out (option (nat * X)) :=
  skip_loop probe (List.length s - S pos) (S pos).

(** [if pos < len(stream): t = stream[pos]; if test(t): ...],
    core/sequence.py:51-53,64-66,73-74 *)
Definition probe_tok (test : T -> out bool) (s : list T) (pos : nat)
    : out (option T) :=
  match nth_error s pos with
  | Some t => b <- test t ;; Ret (if b then Some t else None)
  | None => Ret None
  end.

(** core/sequence.py:47-57  _satisfy_fast; the callback may raise *)
Definition satisfy_fast (test : T -> out bool) : pfast T T :=
  fun s pos c =>
    r <- probe_tok test s pos ;;
    match r with
    | Some t => Ret (SOk (Ok t (pos + 1) c [] true))
    | None => Ret (SErr (Err (get_loc c s pos) [] false))
    end.

(** core/sequence.py:60-86  _satisfy *)
Definition satisfy_full (test : T -> out bool) : pfull T T :=
  fun s pos c ins rem =>
    r <- probe_tok test s pos ;;
    match r with
    | Some t => Ret (ROk (Ok t (pos + 1) c [] true))
    | None =>
        match rem with
        | None => Ret (RErr (Err (get_loc c s pos) [] false))
        | Some _ =>
            let l := get_loc c s pos in
            f <- skip_search s pos (probe_tok test s) ;;
            match f with
            | Some (cur, t) =>
                Ret (RRec (Recd
                  [make_skip ins t (cur + 1) (update_loc c s (cur + 1)) l
                     (cur - pos) []]
                  (Some (cur - pos)) l [] false))
            | None => Ret (RErr (Err l [] false))
            end
        end
    end.

(** [t == s], core/sequence.py:99,112,123: equality of tokens is a parameter
    [teq] (Token equality ignores locations, lexer.py:31-32). *)
Definition probe_sym (teq : T -> T -> bool) (x : T) (s : list T) (pos : nat)
    : out (option T) :=
  match nth_error s pos with
  | Some t => Ret (if teq t x then Some t else None)
  | None => Ret None
  end.

(** core/sequence.py:93-103  _sym_fast with expected = [label] *)
Definition sym_fast (teq : T -> T -> bool) (x : T) (label : string)
    : pfast T T :=
  fun s pos c =>
    r <- probe_sym teq x s pos ;;
    match r with
    | Some t => Ret (SOk (Ok t (pos + 1) c [] true))
    | None => Ret (SErr (Err (get_loc c s pos) [label] false))
    end.

(** core/sequence.py:106-134  _sym ([if rem:] is [rem <> 0]) *)
Definition sym_full (teq : T -> T -> bool) (x : T) (label : string)
    : pfull T T :=
  fun s pos c ins rem =>
    r <- probe_sym teq x s pos ;;
    match r with
    | Some t => Ret (ROk (Ok t (pos + 1) c [] true))
    | None =>
        match rem with
        | None => Ret (RErr (Err (get_loc c s pos) [label] false))
        | Some m =>
            let l := get_loc c s pos in
            let reps := if Z.eqb m 0 then []
                        else [make_insert m x pos c l label [label]] in
            f <- skip_search s pos (probe_sym teq x s) ;;
            match f with
            | Some (cur, t) =>
                Ret (RRec (Recd
                  (reps ++
                   [make_skip ins t (cur + 1) (update_loc c s (cur + 1)) l
                      (cur - pos) [label]])
                  (Some (cur - pos)) l [label] false))
            | None => Ret (RRec (Recd reps None l [label] false))
            end
        end
    end.

(** [stream.startswith(x, pos)] for str streams; for the non-empty [x]
    accepted by [literal] this is False beyond the end of the stream. *)
Fixpoint is_prefix (teq : T -> T -> bool) (x l : list T) : bool :=
  match x, l with
  | [], _ => true
  | a :: x', b :: l' => teq b a && is_prefix teq x' l'
  | _ :: _, [] => false
  end.
Definition starts_with (teq : T -> T -> bool) (x s : list T) (pos : nat) : bool :=
  is_prefix teq x (skipn pos s).

Definition probe_lit (teq : T -> T -> bool) (x : list T) (s : list T)
    (pos : nat) : out (option unit) :=
  Ret (if starts_with teq x s pos then Some tt else None).

(** core/scannerless.py:23-33  _literal_fast; [label] is repr(s) *)
Definition literal_fast (teq : T -> T -> bool) (x : list T) (label : string)
    : pfast T (list T) :=
  fun s pos c =>
    let ls := List.length x in
    if starts_with teq x s pos then
      Ret (SOk (Ok x (pos + ls) (update_loc c s (pos + ls)) [] true))
    else Ret (SErr (Err (get_loc c s pos) [label] false)).

(** core/scannerless.py:36-65  _literal *)
Definition literal_full (teq : T -> T -> bool) (x : list T) (label : string)
    : pfull T (list T) :=
  fun s pos c ins rem =>
    let ls := List.length x in
    if starts_with teq x s pos then
      Ret (ROk (Ok x (pos + ls) (update_loc c s (pos + ls)) [] true))
    else
      match rem with
      | None => Ret (RErr (Err (get_loc c s pos) [label] false))
      | Some m =>
          let l := get_loc c s pos in
          let reps := if Z.eqb m 0 then []
                      else [make_insert m x pos c l label [label]] in
          f <- skip_search s pos (probe_lit teq x s) ;;
          match f with
          | Some (cur, _) =>
              Ret (RRec (Recd
                (reps ++
                 [make_skip ins x (cur + ls) (update_loc c s (cur + ls)) l
                    (cur - pos) [label]])
                (Some (cur - pos)) l [label] false))
          | None => Ret (RRec (Recd reps None l [label] false))
          end
      end.

(** [r = match(stream, pos=pos); if r is not None: v = r.group(group);
    if v is not None: end = r.end()], core/scannerless.py:80-84,97-101,108-112.
    The regular expression engine is an oracle [m] returning [r.end()] and
    [r.group(group)] of a match.  (For [r.group] raising IndexError for a
    group that the pattern does not have see RegexGroup.v.) *)
Definition probe_re {A} (m : list T -> nat -> option (nat * option A))
    (s : list T) (pos : nat) : option (nat * A) :=
  match m s pos with
  | Some (e, Some v) => Some (e, v)
  | Some (_, None) => None
  | None => None
  end.

(** core/scannerless.py:75-88  _regexp_fast *)
Definition regexp_fast {A} (m : list T -> nat -> option (nat * option A))
    : pfast T A :=
  fun s pos c =>
    match probe_re m s pos with
    | Some (e, v) =>
        Ret (SOk (Ok v e (update_loc c s e) [] (negb (Nat.eqb e pos))))
    | None => Ret (SErr (Err (get_loc c s pos) [] false))
    end.

(** core/scannerless.py:91-124  _regexp *)
Definition regexp_full {A} (m : list T -> nat -> option (nat * option A))
    : pfull T A :=
  fun s pos c ins rem =>
    match probe_re m s pos with
    | Some (e, v) =>
        Ret (ROk (Ok v e (update_loc c s e) [] (negb (Nat.eqb e pos))))
    | None =>
        match rem with
        | None => Ret (RErr (Err (get_loc c s pos) [] false))
        | Some _ =>
            let l := get_loc c s pos in
            f <- skip_search s pos (fun cur => Ret (probe_re m s cur)) ;;
            match f with
            | Some (cur, (e, v)) =>
                Ret (RRec (Recd
                  [make_skip ins v e (update_loc c s e) l (cur - pos) []]
                  (Some (cur - pos)) l [] false))
            | None => Ret (RErr (Err l [] false))
            end
        end
    end.

End Prims.
