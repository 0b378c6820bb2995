(** Model of tests/parsers/yamlish.py: nested dicts written with indentation,
    parsed with the layout combinators. *)
From Coq Require Export List.
Import ListNotations.
From Verif Require Export Api.
From Verif Require Import Json JsonText.
Local Open Scope N_scope.

(** Python values: a str or a dict *)
Inductive yaml : Type :=
| YStr (s : list char)
| YDict (d : list (list char * yaml)).
Definition yaml_V (d : nat) : Type := (list char * yaml)%type.

(** [a-zA-Z_] and [a-zA-Z_0-9] *)
Definition ystart (c : char) : bool := in_range 65 90 c || in_range 97 122 c || N.eqb c 95.
Definition ychar (c : char) : bool := ystart c || in_range 48 57 c.
(** [ \t] *)
Definition yblank (c : char) : bool := N.eqb c 32 || N.eqb c 9.

Section Yamlish.
(** what [\s] matches *)
Variable space : char -> bool.
Notation ygram := (gram char yaml_V).

(** The regular expressions, yamlish.py:8-11: where the match at [pos] ends,
    and the text matched.  The repetitions are greedy and what follows them
    in the pattern cannot be matched by the repeated class, so a match is
    never revised. *)
Definition matched (s : list char) (pos n : nat) : option (nat * option (list char)) :=
  Some ((pos + n)%nat, Some (firstn n (skipn pos s))).
Definition re_eol (s : list char) (pos : nat) : option (nat * option (list char)) :=
  match skipn pos s with
  | c :: r => if N.eqb c 10 then matched s pos (S (span space r)) else None
  | [] => None
  end.
Definition re_yows (s : list char) (pos : nat) : option (nat * option (list char)) :=
  matched s pos (span space (skipn pos s)).
Definition re_ident (s : list char) (pos : nat) : option (nat * option (list char)) :=
  match skipn pos s with
  | c :: r => if ystart c then matched s pos (S (span ychar r)) else None
  | [] => None
  end.
Definition re_colon (s : list char) (pos : nat) : option (nat * option (list char)) :=
  let n := span yblank (skipn pos s) in
  match skipn n (skipn pos s) with
  | c :: r => if N.eqb c 58 then matched s pos (n + S (span yblank r))%nat else None
  | [] => None
  end.
(** yamlish.py:8-11 *)
Definition yeol : ygram (list char) := GRegexp re_eol.
Definition yows : ygram (list char) := GRegexp re_yows.
Definition yident : ygram (list char) := GRegexp re_ident.
Definition ycolon : ygram (list char) := GRegexp re_colon.
(** yamlish.py:13-14 *)
Definition ypair : ygram (list char * yaml) := GDelay 0.
Definition ypairs : ygram (list (list char * yaml)) := GMany (GAligned ypair).
(** yamlish.py:15-18.  (In [eol | eof()] the str and None are both mapped to
    the unit; [YStr] and [YDict] say what an [object] is.) *)
Definition yvalue : ygram yaml :=
  GAlt
    (GFmap (seql yident (GAlt (GFmap yeol (fun _ => Ret tt)) GEof)) (fun x => Ret (YStr x)))
    (seqr yeol (GIndented 4 (GFmap (seq ypair ypairs) (fun vs => Ret (YDict (dict_of (fst vs :: snd vs))))))).
(** yamlish.py:19 *)
Definition yaml_E : env char yaml_V := fun _ => seq (seql yident ycolon) yvalue.
(** yamlish.py:21 *)
Definition yaml_parser : ygram yaml :=
  seql (seqr yows (GFmap ypairs (fun kvs => Ret (YDict (dict_of kvs))))) GEof.
(** yamlish.py:24-25  [loads] *)
Definition yloads (n : nat) (src : list char) : out (unwrapped yaml) :=
  r <- scannerless_parse yaml_E n yaml_parser src false ;; Ret (unwrap r false).
End Yamlish.
