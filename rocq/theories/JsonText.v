(** Model of the lexical part of tests/parsers/json.py: the regular expressions
    [spec] and [escape], [unescape], and [int] on the texts of integers.

    Regular expressions are written by hand as functions that follow Python's
    ordered choice and greedy repetition.  None of the repetitions used here
    can be shortened to make what follows match (what follows a repetition of
    a class never starts with a character of the class), so backtracking into
    them is left out. *)
From Verif Require Export Json.
Local Open Scope N_scope.

Definition ch (a : ascii) : char := N_of_ascii a.
Definition in_range (a b c : char) : bool := (a <=? c) && (c <=? b).
(** json.py:9  [ \n\r\t] *)
Definition is_ws (c : char) : bool := (c =? 32) || (c =? 10) || (c =? 13) || (c =? 9).
(** json.py:10  [{}:,[\]] *)
Definition is_punct_char (c : char) : bool :=
  (c =? ch "{") || (c =? ch "}") || (c =? ch ":") || (c =? ch ",") || (c =? ch "[") || (c =? ch "]").
(** [0-9] and [0-9a-fA-F] *)
Definition is_digit (c : char) : bool := in_range 48 57 c.
Definition is_hex (c : char) : bool := is_digit c || in_range 97 102 c || in_range 65 70 c.
(** json.py:18  [\x20\x21\x23-\x5B\x5D-\U0010FFFF] *)
Definition is_plain (c : char) : bool :=
  (c =? 32) || (c =? 33) || in_range 35 91 c || in_range 93 1114111 c.
(** json.py:19 and 25: the class of a quote, backslash, slash, b, f, n, r, t *)
Definition is_simple (c : char) : bool :=
  (c =? 34) || (c =? 92) || (c =? 47) || (c =? 98) || (c =? 102) || (c =? 110) || (c =? 114) || (c =? 116).

(** length of the longest prefix of characters of a class *)
Fixpoint span (p : char -> bool) (s : list char) : nat :=
  match s with
  | c :: s => if p c then S (span p s) else O
  | [] => O
  end.
Fixpoint starts (x s : list char) : bool :=
  match x, s with
  | [], _ => true
  | a :: x, b :: s => (a =? b) && starts x s
  | _, _ => false
  end.
Definition more (n : nat) (o : option nat) : option nat := option_map (fun m => (n + m)%nat) o.

(** json.py:13 and 16: a zero, or [1-9] and then any number of [0-9] *)
Definition nat_len (s : list char) : option nat :=
  match s with
  | c :: s =>
      if c =? 48 then Some 1%nat
      else if in_range 49 57 c then Some (S (span is_digit s)) else None
  | [] => None
  end.
(** ... with an optional minus sign *)
Definition int_len (s : list char) : option nat :=
  match s with
  | c :: s' => if c =? 45 then more 1 (nat_len s') else nat_len s
  | [] => None
  end.
(** [0-9]+ *)
Definition digits_len (s : list char) : option nat :=
  match span is_digit s with O => None | n => Some n end.
(** \.[0-9]+ *)
Definition frac_len (s : list char) : option nat :=
  match s with
  | c :: s => if c =? 46 then more 1 (digits_len s) else None
  | [] => None
  end.
(** [eE][-+]?[0-9]+ *)
Definition exp_len (s : list char) : option nat :=
  match s with
  | c :: s =>
      if (c =? 101) || (c =? 69) then
        match s with
        | c' :: s' =>
            if (c' =? 45) || (c' =? 43) then more 2 (digits_len s') else more 1 (digits_len s)
        | [] => None
        end
      else None
  | [] => None
  end.
(** json.py:13-15 *)
Definition float_len (s : list char) : option nat :=
  match int_len s with
  | None => None
  | Some n =>
      let s := skipn n s in
      match frac_len s with
      | Some f =>
          match exp_len (skipn f s) with
          | Some e => Some (n + (f + e))%nat
          | None => Some (n + f)%nat
          end
      | None => more n (exp_len s)
      end
  end.

(** json.py:17-20, after the opening quote: number of characters before the
    closing quote *)
Fixpoint body_len (s : list char) : option nat :=
  match s with
  | [] => None
  | c :: s' =>
      if c =? 34 then Some O
      else if c =? 92 then
        match s' with
        | e :: s'' =>
            if is_simple e then more 2 (body_len s'')
            else if e =? 117 then
              match s'' with
              | h1 :: h2 :: h3 :: h4 :: s''' =>
                  if is_hex h1 && is_hex h2 && is_hex h3 && is_hex h4 then more 6 (body_len s''')
                  else None
              | _ => None
              end
            else None
        | [] => None
        end
      else if is_plain c then more 1 (body_len s') else None
  end.
(** the group is repeated at least once *)
Definition string_len (s : list char) : option nat :=
  match s with
  | c :: s => if c =? 34 then match body_len s with Some O => None | o => o end else None
  | [] => None
  end.

(** json.py:8-22  [spec.match(src, pos)] as [lexspec] asks: end of the match and
    the group that matched.  The first alternative that matches is taken. *)
Definition json_spec : lexspec := fun src pos =>
  let s := skipn pos src in
  let group kind n := Some ((pos + n)%nat, Some (kind, firstn n s)) in
  match s with
  | [] => None
  | c :: _ =>
      if is_ws c then Some ((pos + span is_ws s)%nat, None)
      else if is_punct_char c then group "punct"%string 1%nat
      else if starts (ascii_chars "true") s then group "bool"%string 4%nat
      else if starts (ascii_chars "false") s then group "bool"%string 5%nat
      else if starts (ascii_chars "null") s then group "null"%string 4%nat
      else match float_len s with
      | Some n => group "float"%string n
      | None =>
      match int_len s with
      | Some n => group "integer"%string n
      | None =>
      match string_len s with
      | Some n => Some ((pos + (n + 2))%nat, Some ("string"%string, firstn n (skipn 1 s)))
      (* [.] does not match a newline, but that is white space *)
      | None => group "_"%string 1%nat
      end end end
  end.

(** json.py:28-31  [simple] *)
Definition simple_of (e : char) : char :=
  if e =? 98 then 8 else if e =? 102 then 12 else if e =? 110 then 10
  else if e =? 114 then 13 else if e =? 116 then 9 else e.
(** [int(_, 16)] of one digit and of four *)
Definition hex_of (c : char) : N :=
  if c <=? 57 then c - 48 else if c <=? 70 then c - 55 else c - 87.
Definition hex4 (a b c d : char) : N :=
  ((hex_of a * 16 + hex_of b) * 16 + hex_of c) * 16 + hex_of d.
(** json.py:34-41  [escape.sub(sub, s)]: matches of [escape] (json.py:25) are
    replaced from left to right, other characters are copied *)
Fixpoint json_unescape (s : list char) : list char :=
  match s with
  | [] => []
  | c :: s' =>
      if c =? 92 then
        match s' with
        | e :: s'' =>
            if is_simple e then simple_of e :: json_unescape s''
            else if e =? 117 then
              match s'' with
              | h1 :: h2 :: h3 :: h4 :: s''' =>
                  if is_hex h1 && is_hex h2 && is_hex h3 && is_hex h4
                  then hex4 h1 h2 h3 h4 :: json_unescape s'''
                  else c :: json_unescape s'
              | _ => c :: json_unescape s'
              end
            else c :: json_unescape s'
        | [] => [c]
        end
      else c :: json_unescape s'
  end.

(** json.py:51  [int] on texts that match the group [integer] (other texts,
    which Python rejects or reads differently, do not reach it; the limit of
    4300 digits that newer versions of Python have is left out) *)
Definition digits_of (s : list char) : Z :=
  fold_left (fun z c => (z * 10 + Z.of_N (c - 48))%Z) s 0%Z.
Definition json_int (s : list char) : Z :=
  match s with
  | c :: s' => if c =? 45 then (- digits_of s')%Z else digits_of s
  | [] => 0%Z
  end.

(** json.py:74-75 with these; floats are abstract *)
Definition loads {F} (float_of : list char -> F) (n : nat) (src : list char) : out (loaded (F := F)) :=
  json_loads json_unescape json_int float_of json_spec n src.
