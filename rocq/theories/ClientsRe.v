(** The client parsers of tests/parsers with their regular expressions as they
    are written there (compare Json.v, JsonText.v, JsonScan.v, Readme.v and
    Yamlish.v, where the regular expressions are replaced by functions). *)
From Verif Require Export Regex.
From Verif Require Import Json JsonText JsonScan.
From Verif Require Readme Yamlish.
Local Open Scope string_scope.

(** ** tests/parsers/json.py *)
(** json.py:8-22, verbatim (VERBOSE) *)
Definition json_spec_text : string := "
[ \n\r\t]+
|(?P<punct>[{}:,[\]])
|(?P<bool>true|false)
|(?P<null>null)
|(?P<float>-?(?:0|[1-9][0-9]*)(?:
    (?:\.[0-9]+)?(?:[eE][-+]?[0-9]+)|(?:\.[0-9]+)
))
|(?P<integer>-?(?:0|[1-9][0-9]*))
|""(?P<string>(?:
    [\x20\x21\x23-\x5B\x5D-\U0010FFFF]
    |\\(?:[""\\/bfnrt]|u[0-9a-fA-F]{4})
)+)""
|(?P<_>.)
".
(** json.py:25-27 and json_scannerless.py:8-10, verbatim (VERBOSE) *)
Definition escape_text : string := "
\\(?:(?P<simple>[""\\/bfnrt])|u(?P<unicode>[0-9a-fA-F]{4}))
".

Section Clients.
(** what [\s] and [\d] match *)
Variable space digit : char -> bool.

(** json.py:35-38  [sub]: [chr(int(m.group("unicode"), 16))] or [simple[m.group("simple")]].
    (A group that did not take part, and a text that is not a key of [simple],
    would raise; neither happens.) *)
Definition hex_int (x : list char) : N := fold_left (fun a c => (a * 16 + hex_of c)%N) x 0%N.
Definition escape_sub (c : captures) : list char :=
  match lastgroup c with
  | Some g =>
      if String.eqb g "unicode" then
        match group_named "unicode" c with Some x => [hex_int x] | None => [] end
      else match group_named "simple" c with Some [e] => [simple_of e] | _ => [] end
  | None => []
  end.
(** json.py:34-40  [unescape] *)
Definition re_unescape (s : list char) : list char :=
  re_sub space digit (pattern true escape_text) escape_sub s.
(** json.py:74-75  [loads] *)
Definition re_loads {F} (float_of : list char -> F) (n : nat) (src : list char) : out (loaded (F := F)) :=
  json_loads re_unescape json_int float_of (re_lex space digit (pattern true json_spec_text)) n src.

(** scannerless.py:35-57  [regexp(pat, group)] *)
Definition regexp {V} (pat : string) (k : nat) : gram char V (list char) :=
  GRegexp (re_match space digit (pattern false pat) k).

(** ** tests/parsers/json_scannerless.py *)
Section Scan.
Context {F : Type}.
Variable float_of : list char -> F.
Notation sgram := (gram char (@json_V F)).
(** json_scannerless.py:27-35 *)
Definition r_ows : sgram (list char) := regexp "[ \n\r\t]*" 0.
Definition r_token (pat : string) : sgram (list char) := regexp (pat ++ "[ \n\r\t]*") 1.
Definition r_punct (a : ascii) : sgram (list char) :=
  seql (GLiteral N.eqb [N_of_ascii a] ("'" ++ String a "'")%string) r_ows.
(** json_scannerless.py:40-49 *)
Definition r_string_token : sgram (list char) :=
  GLabel (r_token ("""((?:[\x20\x21\x23-\x5B\x5D-\U0010FFFF]|" ++ "\\(?:[""\\/bfnrt]|u[0-9a-fA-F]{4}))+)""")) "string".
Definition r_string : sgram (list char) := GFmap r_string_token (fun x => Ret (re_unescape x)).
Definition r_integer : sgram (json F) :=
  GFmap (GLabel (r_token "(-?(?:0|[1-9][0-9]*))") "integer") (fun x => Ret (JInt (json_int x))).
Definition r_number : sgram (json F) :=
  GFmap (GLabel (r_token "(-?(?:0|[1-9][0-9]*)(?:(?:\.[0-9]+)?(?:[eE][-+]?[0-9]+)|(?:\.[0-9]+)))") "number")
    (fun x => Ret (JFloat (float_of x))).
Definition r_boolean : sgram (json F) :=
  GFmap (GLabel (r_token "(true|false)") "bool") (fun x => Ret (JBool (chars_eqb x (ascii_chars "true")))).
Definition r_null : sgram (json F) := GFmap (GLabel (r_token "(null)") "null") (fun _ => Ret JNull).
Definition r_string_value : sgram (json F) := GFmap r_string_token (fun x => Ret (JStr (re_unescape x))).
(** json_scannerless.py:38, 50-66 *)
Definition r_value : sgram (json F) := GDelay 0.
Definition r_member : sgram (list char * json F) :=
  seq (seql (GRecoverWith r_string (ascii_chars "a") "'""a""'") (r_punct ":")) r_value.
Definition r_dict : sgram (json F) :=
  GLabel (between (r_punct "{") (r_punct "}")
    (GFmap (sep_by r_member (r_punct ",")) (fun v => Ret (JDict (dict_of v))))) "object".
Definition r_list : sgram (json F) :=
  GLabel (between (r_punct "[") (r_punct "]")
    (GFmap (sep_by r_value (r_punct ",")) (fun v => Ret (JList v)))) "list".
Definition r_scalar : sgram (json F) :=
  GAlt (GAlt (GAlt (GAlt r_number r_integer) r_boolean) r_null) r_string_value.
Definition r_scan_E : env char (@json_V F) := fun d =>
  GLabel (GAlt (GAlt (GRecoverWith r_scalar (JInt 1) "1") (GRecover r_dict)) (GRecover r_list)) "value".
Definition r_scan_parser : sgram (json F) := seql (seqr r_ows r_value) GEof.
(** json_scannerless.py:69-70 *)
Definition re_sloads (n : nat) (src : list char) : out (unwrapped (json F)) :=
  r <- scannerless_parse r_scan_E n r_scan_parser src false ;; Ret (unwrap r false).
End Scan.

(** ** tests/parsers/expr.py *)
Section Expr.
Variable dval : char -> Z.
Notation egram := (gram char Readme.expr_V).
(** expr.py:16-21 *)
Definition r_spaces : egram (list char) := regexp "\s*" 0.
Definition r_num : egram Z := seql (GFmap (regexp "\d+" 0) (fun x => Ret (Readme.int_of dval x))) r_spaces.
Definition r_mul_op : egram (Z -> Z -> out Z) := seql (GFmap (regexp "[*]" 0) Readme.op_action) r_spaces.
Definition r_add_op : egram (Z -> Z -> out Z) := seql (GFmap (regexp "[-+]" 0) Readme.op_action) r_spaces.
Definition r_l_paren : egram (list char) := seql (GLiteral N.eqb [40%N] "'('"%string) r_spaces.
Definition r_r_paren : egram (list char) := seql (GLiteral N.eqb [41%N] "')'"%string) r_spaces.
(** expr.py:23-37 *)
Definition r_expr : egram Z := GDelay 0.
Definition r_atom : egram Z := GAlt r_num (between r_l_paren r_r_paren r_expr).
Definition r_expr_E : env char Readme.expr_V := fun _ => chainl1 (chainl1 r_atom r_mul_op) r_add_op.
Definition r_expr_parser : egram Z := seql r_expr GEof.
Definition re_eval (n : nat) (src : list char) : out (unwrapped Z) :=
  r <- scannerless_parse r_expr_E n r_expr_parser src false ;; Ret (unwrap r false).
End Expr.

(** ** tests/parsers/yamlish.py *)
Section Yaml.
Notation ygram := (gram char Yamlish.yaml_V).
Definition tab : string := String (Ascii.ascii_of_nat 9) "".
(** yamlish.py:8-11; the last pattern is not a raw string, it contains tabs *)
Definition r_eol : ygram (list char) := regexp "\n\s*" 0.
Definition r_yows : ygram (list char) := regexp "\s*" 0.
Definition r_ident : ygram (list char) := regexp "[a-zA-Z_][a-zA-Z_0-9]*" 0.
Definition r_colon : ygram (list char) := regexp ("[ " ++ tab ++ "]*:[ " ++ tab ++ "]*") 0.
(** yamlish.py:13-25 *)
Definition r_ypair : ygram (list char * Yamlish.yaml) := GDelay 0.
Definition r_ypairs : ygram (list (list char * Yamlish.yaml)) := GMany (GAligned r_ypair).
Definition r_yvalue : ygram Yamlish.yaml :=
  GAlt
    (GFmap (seql r_ident (GAlt (GFmap r_eol (fun _ => Ret tt)) GEof)) (fun x => Ret (Yamlish.YStr x)))
    (seqr r_eol (GIndented 4 (GFmap (seq r_ypair r_ypairs)
      (fun vs => Ret (Yamlish.YDict (dict_of (fst vs :: snd vs))))))).
Definition r_yaml_E : env char Yamlish.yaml_V := fun _ => seq (seql r_ident r_colon) r_yvalue.
Definition r_yaml_parser : ygram Yamlish.yaml :=
  seql (seqr r_yows (GFmap r_ypairs (fun kvs => Ret (Yamlish.YDict (dict_of kvs))))) GEof.
Definition re_yloads (n : nat) (src : list char) : out (unwrapped Yamlish.yaml) :=
  r <- scannerless_parse r_yaml_E n r_yaml_parser src false ;; Ret (unwrap r false).
End Yaml.
End Clients.
