(** Model of tests/parsers/json_scannerless.py: JSON parsed from characters
    directly, without a lexer.  [unescape] (json_scannerless.py:8-24) is the
    same as in json.py, see JsonText.v. *)
From Verif Require Export JsonText.
Local Open Scope N_scope.

(** json_scannerless.py:27  [ows = regexp(r"[ \n\r\t]*")] *)
Definition re_ows (s : list char) (pos : nat) : option (nat * option (list char)) :=
  let n := span is_ws (skipn pos s) in Some ((pos + n)%nat, Some (firstn n (skipn pos s))).
(** json_scannerless.py:30-31  [token(pat)]: [pat] and white space, the value
    is group 1.  [f] gives the length of the match of [pat] and the group.
    (White space can be empty, so the match of [pat] is never revised.) *)
Definition re_token (f : list char -> option (nat * list char)) (s : list char) (pos : nat)
    : option (nat * option (list char)) :=
  match f (skipn pos s) with
  | Some (n, v) => Some ((pos + n + span is_ws (skipn n (skipn pos s)))%nat, Some v)
  | None => None
  end.
Definition whole (s : list char) (o : option nat) : option (nat * list char) :=
  match o with Some n => Some (n, firstn n s) | None => None end.
(** the patterns, json_scannerless.py:40-49; lengths as in JsonText.v (the
    same regular expressions) *)
Definition pat_string (s : list char) : option (nat * list char) :=
  match string_len s with Some n => Some ((n + 2)%nat, firstn n (skipn 1 s)) | None => None end.
Definition pat_integer (s : list char) : option (nat * list char) := whole s (int_len s).
Definition pat_number (s : list char) : option (nat * list char) := whole s (float_len s).
Definition pat_bool (s : list char) : option (nat * list char) :=
  if starts (ascii_chars "true") s then Some (4%nat, ascii_chars "true")
  else if starts (ascii_chars "false") s then Some (5%nat, ascii_chars "false") else None.
Definition pat_null (s : list char) : option (nat * list char) :=
  if starts (ascii_chars "null") s then Some (4%nat, ascii_chars "null") else None.

Section JsonScan.
Context {F : Type}.
Variable unescape : list char -> list char.
Variable int_of : list char -> Z.
Variable float_of : list char -> F.
Notation sgram := (gram char (@json_V F)).

Definition ows : sgram (list char) := GRegexp re_ows.
(** json_scannerless.py:34-35  [literal(p) << ows] *)
Definition spunct (a : ascii) : sgram (list char) :=
  seql (GLiteral N.eqb [N_of_ascii a] ("'" ++ String a "'")%string) ows.
(** json_scannerless.py:40-49 *)
Definition sstring : sgram (list char) :=
  GFmap (GLabel (GRegexp (re_token pat_string)) "string") (fun x => Ret (unescape x)).
Definition sinteger : sgram (json F) :=
  GFmap (GLabel (GRegexp (re_token pat_integer)) "integer") (fun x => Ret (JInt (int_of x))).
Definition snumber : sgram (json F) :=
  GFmap (GLabel (GRegexp (re_token pat_number)) "number") (fun x => Ret (JFloat (float_of x))).
Definition sboolean : sgram (json F) :=
  GFmap (GLabel (GRegexp (re_token pat_bool)) "bool") (fun x => Ret (JBool (chars_eqb x (ascii_chars "true")))).
Definition snull : sgram (json F) :=
  GFmap (GLabel (GRegexp (re_token pat_null)) "null") (fun _ => Ret JNull).
(** [string] used as a value, see [jstring_value] *)
Definition sstring_value : sgram (json F) :=
  GFmap (GLabel (GRegexp (re_token pat_string)) "string") (fun x => Ret (JStr (unescape x))).

(** json_scannerless.py:38 *)
Definition svalue : sgram (json F) := GDelay 0.
(** json_scannerless.py:50-54 *)
Definition smember : sgram (list char * json F) :=
  seq (seql (GRecoverWith sstring (ascii_chars "a") "'""a""'") (spunct ":")) svalue.
Definition sdict : sgram (json F) :=
  GLabel (between (spunct "{") (spunct "}")
    (GFmap (sep_by smember (spunct ",")) (fun v => Ret (JDict (dict_of v))))) "object".
(** json_scannerless.py:55-57 *)
Definition slist : sgram (json F) :=
  GLabel (between (spunct "[") (spunct "]")
    (GFmap (sep_by svalue (spunct ",")) (fun v => Ret (JList v)))) "list".
(** json_scannerless.py:59-64 *)
Definition sscalar : sgram (json F) :=
  GAlt (GAlt (GAlt (GAlt snumber sinteger) sboolean) snull) sstring_value.
Definition scan_E : env char (@json_V F) := fun d =>
  GLabel (GAlt (GAlt (GRecoverWith sscalar (JInt 1) "1") (GRecover sdict)) (GRecover slist)) "value".
(** json_scannerless.py:66 *)
Definition scan_parser : sgram (json F) := seql (seqr ows svalue) GEof.
(** json_scannerless.py:69-70  [loads] *)
Definition scan_loads (n : nat) (src : list char) : out (unwrapped (json F)) :=
  r <- scannerless_parse scan_E n scan_parser src false ;; Ret (unwrap r false).
End JsonScan.

(** [loads] with the functions of JsonText.v *)
Definition sloads {F} (float_of : list char -> F) (n : nat) (src : list char) : out (unwrapped (json F)) :=
  scan_loads json_unescape json_int float_of n src.
