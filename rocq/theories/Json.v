(** Model of tests/parsers/json.py: the JSON parser that the test-suite builds
    on the library (a lexer with a token grammar on top). *)
From Coq Require Export Ascii String List.
Import ListNotations.
From Verif Require Export Lexer.
Local Open Scope string_scope.

(** What the parser returns ([object] in json.py:46): str, int, float, bool,
    None, dict and list.  [F] is the type of floats, left abstract.  A dict is
    the list of its items in iteration order. *)
Inductive json (F : Type) : Type :=
| JStr (s : list char)
| JInt (z : Z)
| JFloat (f : F)
| JBool (b : bool)
| JNull
| JDict (items : list (list char * json F))
| JList (items : list (json F)).
Arguments JStr {F}. Arguments JInt {F}. Arguments JFloat {F}. Arguments JBool {F}.
Arguments JNull {F}. Arguments JDict {F}. Arguments JList {F}.

(** json.py:56  [dict(v)]: later pairs replace the value of earlier ones and
    keep their place *)
Fixpoint dict_set {X} (d : list (list char * X)) (k : list char) (v : X)
    : list (list char * X) :=
  match d with
  | [] => [(k, v)]
  | (k', v') :: d => if chars_eqb k k' then (k', v) :: d else (k', v') :: dict_set d k v
  end.
Definition dict_of {X} (l : list (list char * X)) : list (list char * X) :=
  fold_left (fun d kv => dict_set d (fst kv) (snd kv)) l [].

Definition loc0 : loc := Loc 0 0 0.
Definition ascii_chars (x : string) : list char :=
  map N_of_ascii (list_ascii_of_string x).

Section Json.
Context {F : Type}.
(** json.py:34-41 [unescape], and the builtins [int] and [float] on token
    texts.  ([int] and [float] may raise on texts that are not numbers; the
    token kinds exclude that, see JsonText.v for the concrete lexer.) *)
Variable unescape : list char -> list char.
Variable int_of : list char -> Z.
Variable float_of : list char -> F.

Definition json_V (d : nat) : Type := json F.
Notation jgram := (gram token json_V).

(** json.py:44-45; [Token("punct", x)] has a dummy location which equality of
    tokens ignores, lexer.py:31-32 *)
Definition punct (x : string) : jgram token :=
  GSym token_eqb (Token "punct" (ascii_chars x) loc0 loc0) ("'" ++ x ++ "'").

(** json.py:50-54 *)
Definition jstring : jgram (list char) :=
  GFmap (token_p "string") (fun t => Ret (unescape (tk_value t))).
Definition jinteger : jgram (json F) :=
  GFmap (token_p "integer") (fun t => Ret (JInt (int_of (tk_value t)))).
Definition jnumber : jgram (json F) :=
  GFmap (token_p "float") (fun t => Ret (JFloat (float_of (tk_value t)))).
Definition jboolean : jgram (json F) :=
  GFmap (token_p "bool") (fun t => Ret (JBool (chars_eqb (tk_value t) (ascii_chars "true")))).
Definition jnull : jgram (json F) :=
  GFmap (token_p "null") (fun _ => Ret JNull).
(** [string] where it is used as a value (same parser; the injection into
    [json] has no counterpart in Python) *)
Definition jstring_value : jgram (json F) :=
  GFmap (token_p "string") (fun t => Ret (JStr (unescape (tk_value t)))).

(** the Delay of json.py:48 *)
Definition jvalue : jgram (json F) := GDelay 0.

(** json.py:55-59 *)
Definition jmember : jgram (list char * json F) :=
  seq (seql (GRecoverWith jstring (ascii_chars "a") "'""a""'") (punct ":")) jvalue.
Definition jdict : jgram (json F) :=
  GLabel (between (punct "{") (punct "}")
    (GFmap (sep_by jmember (punct ",")) (fun v => Ret (JDict (dict_of v))))) "object".

(** json.py:60-62; the list itself is the value *)
Definition jlist : jgram (json F) :=
  GLabel (between (punct "[") (punct "]")
    (GFmap (sep_by jvalue (punct ",")) (fun v => Ret (JList v)))) "list".

(** json.py:66 *)
Definition jscalar : jgram (json F) :=
  GAlt (GAlt (GAlt (GAlt jinteger jnumber) jboolean) jnull) jstring_value.

(** json.py:64-69  what [value] is defined as; no other Delay is used *)
Definition json_E : env token json_V := fun d =>
  GLabel (GAlt (GAlt (GRecoverWith jscalar (JInt 1) "1") (GRecover jdict)) (GRecover jlist)) "value".

(** json.py:71 *)
Definition json_parser : jgram (json F) := seql jvalue GEof.

(** json.py:74-75  [loads]: [split_tokens] may raise LexError, [unwrap] may
    raise ParseError.  [n] is fuel. *)
Inductive loaded : Type :=
| LoadsLexError (l : loc)
| Loads (u : unwrapped (json F)).
Definition json_loads (spec : lexspec) (n : nat) (src : list char) : out loaded :=
  lx <- split_tokens n src spec ;;
  match lx with
  | LexErr l => Ret (LoadsLexError l)
  | LexOk toks =>
      r <- lexer_parse json_E n json_parser toks false ;;
      Ret (Loads (unwrap r false))
  end.
End Json.
