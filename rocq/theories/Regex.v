(** Model of the part of Python's module [re] that reparsec and its clients
    rely on: [Pattern.match(stream, pos)], [Match.end], [Match.group],
    [Match.lastgroup] and [Pattern.sub] (core/scannerless.py:79-135,
    lexer.py:51-80, tests/parsers/json.py:8-41), for patterns made of
    characters, classes, the dot, groups (numbered, named and non-capturing),
    choice, and greedy repetition; and a reader for the pattern texts, so that
    the patterns of the client parsers can be taken as they are written.
    Anything else (anchors, lookaround, back references, lazy or possessive
    repetition, flags other than VERBOSE, repetition of something that can
    match the empty text, {m,n} and {0}, group names that are not ASCII
    identifiers) is rejected by the reader, as is what [re.compile] rejects:
    two groups with the same name, bad ranges, unbalanced brackets. *)
From Coq Require Export List String Ascii NArith.
Import ListNotations.
From Verif Require Export Api Lexer.
From Verif Require Import Json.
Local Open Scope N_scope.

Inductive item : Type :=
| IChar (c : char)          (* one character *)
| IRange (a b : char)       (* [a-b], both ends included *)
| ISpace                    (* \s *)
| IDigit.                   (* \d *)
Inductive regex : Type :=
| REps                                       (* the empty pattern *)
| RSet (neg : bool) (l : list item)          (* [...], [^...], one character *)
| RDot                                       (* any character but the newline *)
| RCat (r1 r2 : regex)
| RAlt (r1 r2 : regex)                       (* the first is preferred *)
| RStar (r : regex)                          (* as many as possible preferred *)
| RGroup (k : nat) (name : option string) (r : regex).

(** what the groups matched, the group that was closed last first: number,
    name and text *)
Definition captures : Type := list (nat * option string * list char).

Section Match.
(** what [\s] and [\d] match *)
Variable space digit : char -> bool.

Definition in_item (c : char) (i : item) : bool :=
  match i with
  | IChar a => N.eqb c a
  | IRange a b => (N.leb a c) && (N.leb c b)
  | ISpace => space c
  | IDigit => digit c
  end.
Definition in_set (neg : bool) (l : list item) (c : char) : bool := xorb neg (existsb (in_item c) l).

(** the text between [s] and its suffix [rest] *)
Definition taken (s rest : list char) : list char := firstn (List.length s - List.length rest) s.

(** Every way to match [r] at the beginning of [s], in the order in which a
    backtracking matcher tries them: what is left, and the groups. *)
Fixpoint ways (r : regex) (s : list char) (c : captures) : list (list char * captures) :=
  match r with
  | REps => [(s, c)]
  | RSet neg l => match s with x :: s' => if in_set neg l x then [(s', c)] else [] | [] => [] end
  | RDot => match s with x :: s' => if N.eqb x 10 then [] else [(s', c)] | [] => [] end
  | RCat r1 r2 => flat_map (fun w => ways r2 (fst w) (snd w)) (ways r1 s c)
  | RAlt r1 r2 => ways r1 s c ++ ways r2 s c
  | RStar r =>
      (fix again (n : nat) (s : list char) (c : captures) : list (list char * captures) :=
        match n with
        | O => [(s, c)]
        | S n =>
            flat_map (fun w => if Nat.ltb (List.length (fst w)) (List.length s) then again n (fst w) (snd w) else [])
              (ways r s c) ++ [(s, c)]
        end) (List.length s) s c
  | RGroup k name r => map (fun w => (fst w, (k, name, taken s (fst w)) :: snd w)) (ways r s c)
  end.

(** [pattern.match(s, pos)]: the first way, if there is one.  (Python takes a
    position after the end for the end.) *)
Definition re_first (r : regex) (s : list char) : option (list char * captures) :=
  match ways r s [] with w :: _ => Some w | [] => None end.
(** [m.group(k)] *)
Fixpoint group_of (k : nat) (c : captures) : option (list char) :=
  match c with
  | (k', _, x) :: c => if Nat.eqb k k' then Some x else group_of k c
  | [] => None
  end.
(** [m.group(name)]; [m.lastgroup] is the name of the group closed last *)
Fixpoint group_named (name : string) (c : captures) : option (list char) :=
  match c with
  | (_, Some name', x) :: c => if String.eqb name name' then Some x else group_named name c
  | _ :: c => group_named name c
  | [] => None
  end.
Definition lastgroup (c : captures) : option string :=
  match c with (_, name, _) :: _ => name | [] => None end.
Definition group (k : nat) (s rest : list char) (c : captures) : option (list char) :=
  match k with O => Some (taken s rest) | _ => group_of k c end.
(** core/scannerless.py:79-135, as [GRegexp] asks: [r.end()] and [r.group(k)] *)
Definition re_match (r : regex) (k : nat) (s : list char) (pos : nat) : option (nat * option (list char)) :=
  match re_first r (skipn pos s) with
  | Some (rest, c) => Some ((List.length s - List.length rest)%nat, group k (skipn pos s) rest c)
  | None => None
  end.
(** lexer.py:58-75, as [lexspec] asks: [match.end()], [match.lastgroup] and
    [match.group(kind)]; the last group may have no name *)
Definition re_lex (r : regex) : lexspec := fun s pos =>
  match re_first r (skipn pos s) with
  | Some (rest, c) =>
      Some ((List.length s - List.length rest)%nat,
            match lastgroup c with
            | Some kind => option_map (fun x => (kind, x)) (group_named kind c)
            | None => None
            end)
  | None => None
  end.
(** [pattern.sub(f, s)] for a pattern that does not match the empty text: [f]
    gets the groups.  [n] bounds the length of [s]. *)
Fixpoint re_sub_go (r : regex) (f : captures -> list char) (n : nat) (s : list char) : list char :=
  match n, s with
  | S n, x :: s' =>
      match re_first r s with
      | Some (rest, c) => f c ++ re_sub_go r f n rest
      | None => x :: re_sub_go r f n s'
      end
  | _, _ => []
  end.
Definition re_sub (r : regex) (f : captures -> list char) (s : list char) : list char :=
  re_sub_go r f (List.length s) s.
End Match.

(** ** Reading patterns, as [re.compile] does *)
Fixpoint nullable (r : regex) : bool :=
  match r with
  | REps | RStar _ => true
  | RSet _ _ | RDot => false
  | RCat r1 r2 => nullable r1 && nullable r2
  | RAlt r1 r2 => nullable r1 || nullable r2
  | RGroup _ _ r => nullable r
  end.
Definition lit (c : char) : regex := RSet false [IChar c].
Fixpoint times (n : nat) (r : regex) : regex :=
  match n with O => REps | S O => r | S n => RCat r (times n r) end.

Definition hexdigit (c : char) : option N :=
  if (N.leb 48 c) && (N.leb c 57) then Some (c - 48)
  else if (N.leb 65 c) && (N.leb c 70) then Some (c - 55)
  else if (N.leb 97 c) && (N.leb c 102) then Some (c - 87) else None.
Fixpoint hexnum (n : nat) (a : N) (s : list char) : option (N * list char) :=
  match n, s with
  | O, _ => Some (a, s)
  | S n, c :: s => match hexdigit c with Some d => hexnum n (a * 16 + d) s | None => None end
  | S _, [] => None
  end.
Definition alnum (c : char) : bool :=
  ((N.leb 48 c) && (N.leb c 57)) || ((N.leb 65 c) && (N.leb c 90)) || ((N.leb 97 c) && (N.leb c 122)) || N.leb 128 c.
(** after a backslash *)
Definition read_escape (s : list char) : option (item * list char) :=
  match s with
  | [] => None
  | c :: s =>
      if N.eqb c 110 then Some (IChar 10, s)                 (* n *)
      else if N.eqb c 114 then Some (IChar 13, s)            (* r *)
      else if N.eqb c 116 then Some (IChar 9, s)             (* t *)
      else if N.eqb c 115 then Some (ISpace, s)              (* s *)
      else if N.eqb c 100 then Some (IDigit, s)              (* d *)
      else if N.eqb c 120 then option_map (fun x => (IChar (fst x), snd x)) (hexnum 2 0 s)     (* xHH *)
      else if N.eqb c 117 then option_map (fun x => (IChar (fst x), snd x)) (hexnum 4 0 s)     (* uHHHH *)
      else if N.eqb c 85 then                                                                  (* UHHHHHHHH *)
        match hexnum 8 0 s with Some (x, s) => if N.leb x 1114111 then Some (IChar x, s) else None | None => None end
      else if alnum c then None else Some (IChar c, s)
  end.
(** one element of a class; [93] is the closing bracket, [92] a backslash, [45] minus *)
Definition read_elem (s : list char) : option (item * list char) :=
  match s with
  | c :: s => if N.eqb c 92 then read_escape s else Some (IChar c, s)
  | [] => None
  end.
Fixpoint read_class (n : nat) (s : list char) : option (list item * list char) :=
  match n with
  | O => None
  | S n =>
      match s with
      | [] => None
      | c :: s' =>
          if N.eqb c 93 then Some ([], s')
          else
            match read_elem s with
            | None => None
            | Some (i, s1) =>
                let single := option_map (fun x => (i :: fst x, snd x)) (read_class n s1) in
                match s1 with
                | d :: e :: _ =>
                    if N.eqb d 45 && negb (N.eqb e 93) then
                      match i, read_elem (tl s1) with
                      | IChar a, Some (IChar b, s2) =>
                          if N.leb a b then option_map (fun x => (IRange a b :: fst x, snd x)) (read_class n s2) else None
                      | _, _ => None
                      end
                    else single
                | _ => single
                end
            end
      end
  end.
(** white space that VERBOSE ignores *)
Definition pat_space (c : char) : bool := N.eqb c 32 || ((N.leb 9 c) && (N.leb c 13)).
Fixpoint skip_space (verbose : bool) (s : list char) : list char :=
  match s with c :: s' => if verbose && pat_space c then skip_space verbose s' else s | [] => [] end.
(** a group name up to [>] *)
Fixpoint read_name (s : list char) : option (string * list char) :=
  match s with
  | [] => None
  | c :: s =>
      if N.eqb c 62 then Some (EmptyString, s)
      else option_map (fun x => (String (ascii_of_N c) (fst x), snd x)) (read_name s)
  end.
(** group names are identifiers (ASCII ones) *)
Definition name_start (c : char) : bool := ((N.leb 65 c) && (N.leb c 90)) || ((N.leb 97 c) && (N.leb c 122)) || N.eqb c 95.
Definition name_char (c : char) : bool := name_start c || ((N.leb 48 c) && (N.leb c 57)).
Definition ident_name (name : string) : bool :=
  match ascii_chars name with c :: s => name_start c && forallb name_char s | [] => false end.
(** the number of [{n}] *)
Fixpoint read_count (a : N) (s : list char) : option (N * list char) :=
  match s with
  | [] => None
  | c :: s =>
      if N.eqb c 125 then Some (a, s)
      else if (N.leb 48 c) && (N.leb c 57) then read_count (a * 10 + (c - 48)) s else None
  end.
Definition quant (c : char) : bool := N.eqb c 42 || N.eqb c 43 || N.eqb c 63 || N.eqb c 123.
(** a repetition, if there is one, after [r]; at most one *)
Definition read_quant (verbose : bool) (r : regex) (s : list char) : option (regex * list char) :=
  let s := skip_space verbose s in
  let once (r' : regex) (s : list char) : option (regex * list char) :=
    match skip_space verbose s with c :: _ => if quant c then None else Some (r', s) | [] => Some (r', s) end in
  match s with
  | [] => Some (r, s)
  | c :: s' =>
      if N.eqb c 42 then if nullable r then None else once (RStar r) s'
      else if N.eqb c 43 then if nullable r then None else once (RCat r (RStar r)) s'
      else if N.eqb c 63 then once (RAlt r REps) s'
      else if N.eqb c 123 then
        match s' with
        | d :: _ => if N.eqb d 125 then None else
            match read_count 0 s' with
            | Some (k, s2) => if N.eqb k 0 then None else once (times (N.to_nat k) r) s2
            | None => None
            end
        | [] => None
        end
      else Some (r, s)
  end.
(** [40] and [41] are the parentheses, [124] the bar, [91] the opening bracket,
    [94] a caret, [36] a dollar, [35] the comment sign, [80] P, [60] less than.
    [k] is the number of the next group. *)
Fixpoint read_alt (n : nat) (verbose : bool) (k : nat) (s : list char) {struct n} : option (regex * nat * list char) :=
  match n with
  | O => None
  | S n =>
      match read_seq n verbose k s with
      | None => None
      | Some (r, k, s) =>
          match s with
          | c :: s' =>
              if N.eqb c 124 then
                match read_alt n verbose k s' with
                | Some (r', k, s) => Some (RAlt r r', k, s)
                | None => None
                end
              else Some (r, k, s)
          | [] => Some (r, k, s)
          end
      end
  end
with read_seq (n : nat) (verbose : bool) (k : nat) (s : list char) {struct n} : option (regex * nat * list char) :=
  match n with
  | O => None
  | S n =>
      match skip_space verbose s with
      | [] => Some (REps, k, [])
      | c :: s' =>
          if N.eqb c 41 || N.eqb c 124 then Some (REps, k, c :: s')
          else
            match read_atom n verbose k c s' with
            | None => None
            | Some (a, k, s1) =>
                match read_quant verbose a s1 with
                | None => None
                | Some (q, s2) =>
                    match read_seq n verbose k s2 with
                    | Some (r, k, s3) => Some (match r with REps => q | _ => RCat q r end, k, s3)
                    | None => None
                    end
                end
            end
      end
  end
with read_atom (n : nat) (verbose : bool) (k : nat) (c : char) (s : list char) {struct n} : option (regex * nat * list char) :=
  match n with
  | O => None
  | S n =>
      let close (o : option (regex * nat * list char)) (f : regex -> regex) : option (regex * nat * list char) :=
        match o with
        | Some (r, k, d :: s) => if N.eqb d 41 then Some (f r, k, s) else None
        | _ => None
        end in
      if N.eqb c 40 then
        match s with
        | [] => None
        | d :: s' =>
            if N.eqb d 63 then
              match s' with
              | e :: s2 =>
                  if N.eqb e 58 then close (read_alt n verbose k s2) (fun r => r)
                  else if N.eqb e 80 then
                    match s2 with
                    | f :: s3 =>
                        if N.eqb f 60 then
                          match read_name s3 with
                          | Some (name, s4) =>
                              if ident_name name then close (read_alt n verbose (S k) s4) (RGroup k (Some name)) else None
                          | None => None
                          end
                        else None
                    | [] => None
                    end
                  else None
              | [] => None
              end
            else close (read_alt n verbose (S k) s) (RGroup k None)
        end
      else if N.eqb c 91 then
        match s with
        | [] => None
        | d :: s' =>
            if N.eqb d 94 then
              match s' with
              | e :: _ => if N.eqb e 93 then None else option_map (fun x => (RSet true (fst x), k, snd x)) (read_class (List.length s') s')
              | [] => None
              end
            else if N.eqb d 93 then None
            else option_map (fun x => (RSet false (fst x), k, snd x)) (read_class (List.length s) s)
        end
      else if N.eqb c 92 then option_map (fun x => (RSet false [fst x], k, snd x)) (read_escape s)
      else if N.eqb c 46 then Some (RDot, k, s)
      else if quant c || N.eqb c 94 || N.eqb c 36 || (verbose && N.eqb c 35) then None
      else Some (lit c, k, s)
  end.
(** two groups do not have the same name *)
Fixpoint named (r : regex) : list (nat * string) :=
  match r with
  | REps | RSet _ _ | RDot => []
  | RCat r1 r2 | RAlt r1 r2 => named r1 ++ named r2
  | RStar r => named r
  | RGroup k (Some name) r => (k, name) :: named r
  | RGroup _ None r => named r
  end.
Definition names_ok (l : list (nat * string)) : bool :=
  forallb (fun a => forallb (fun b => negb (String.eqb (snd a) (snd b)) || Nat.eqb (fst a) (fst b)) l) l.
(** [re.compile(pat)] and [re.compile(pat, re.VERBOSE)] *)
Definition compile (verbose : bool) (pat : string) : option regex :=
  let s := ascii_chars pat in
  match read_alt (4 * List.length s + 4) verbose 1 s with
  | Some (r, _, []) => if names_ok (named r) then Some r else None
  | _ => None
  end.
(** the pattern of a text that can be read, otherwise one that never matches *)
Definition pattern (verbose : bool) (pat : string) : regex :=
  match compile verbose pat with Some r => r | None => RSet false [] end.
