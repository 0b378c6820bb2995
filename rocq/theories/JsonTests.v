(** The test data of tests/test_json.py, run in the model: value, location,
    wording of the messages and repairs all agree with what the tests expect.
    Floats are represented by their text. *)
From Verif Require Import Json JsonText.
Local Open Scope string_scope.

Definition tE : env token (json_V (F := list char)) := json_E json_unescape json_int (fun s => s).
Definition jsrc (x : string) : list char := ascii_chars x.
(** [loads(data)] *)
Definition t_loads (x : string) : out (option (unwrapped (json (list char)))) :=
  r <- loads (fun s => s) 200 (jsrc x) ;;
  Ret (match r with LoadsLexError _ => None | Loads u => Some u end).
Definition j_str (x : string) : json (list char) := JStr (jsrc x).
Definition j_num (x : string) : json (list char) := JFloat (jsrc x).
Definition dq := String (ascii_of_N 34) "".
Definition bs := String (ascii_of_N 92) "".

(** test_positive *)
Example json_positive :
  map t_loads ["1"; "12"; "-1"; "1.0"; "10.0"; "1.0e2"; "-1.0"; "true"; "false"; "null";
    dq ++ "string" ++ bs ++ "nvalue" ++ dq; "{}";
    "{""bool"": true, ""number"": 1}"; "{""nested"": {""bool"": false}}"; "[1, 2, 3]"; "[1, [2, 3]]"] =
  map (fun v => Ret (Some (Returns v)))
  [JInt 1; JInt 12; JInt (-1); j_num "1.0"; j_num "10.0"; j_num "1.0e2"; j_num "-1.0"; JBool true; JBool false; JNull;
    j_str ("string" ++ String (ascii_of_N 10) "" ++ "value"); JDict [];
    JDict [(jsrc "bool", JBool true); (jsrc "number", JInt 1)];
    JDict [(jsrc "nested", JDict [(jsrc "bool", JBool false)])];
    JList [JInt 1; JInt 2; JInt 3]; JList [JInt 1; JList [JInt 2; JInt 3]]].
Proof. vm_compute. reflexivity. Qed.

(** test_negative: [str(err.value)] *)
Definition t_error (x : string) : option string :=
  match t_loads x with Ret (Some (Raises l)) => Some (parse_error_str l) | _ => None end.
Example json_negative :
  map t_error [""; "1 1"; "{"; "{""key"""; "{""key"":"; "{""key"": 0"; "{""key"": 0,"; "["; "[0"; "[0,"] =
  map Some
  ["at 1:1: expected value";
   "at 1:3: expected end of file";
   "at 1:2: expected string or '}'";
   "at 1:7: expected ':'";
   "at 1:8: expected value";
   "at 1:10: expected ',' or '}'";
   "at 1:11: expected string";
   "at 1:2: expected value or ']'";
   "at 1:3: expected ',' or ']'";
   "at 1:4: expected value"].
Proof. vm_compute. reflexivity. Qed.

(** test_recovery: value with [unwrap(recover=True)], message without *)
Definition t_recover (x : string) : option (json (list char) * string) :=
  match split_tokens 200 (jsrc x) json_spec with
  | Ret (LexOk toks) =>
      match lexer_parse tE 200 json_parser toks true with
      | Ret r =>
          match unwrap r true, unwrap r false with
          | Returns v, Raises l => Some (v, parse_error_str l)
          | _, _ => None
          end
      | _ => None
      end
  | _ => None
  end.
Notation "x ~> v 'says' m" := (t_recover x = Some (v, m)) (at level 70).
Example json_recovery_1 : "1 1" ~> JInt 1 says "at 1:3: expected end of file (skipped 1 token)".
Proof. vm_compute. reflexivity. Qed.
Example json_recovery_2 : "{" ~> JDict [] says "at 1:2: expected string or '}' (inserted '}')".
Proof. vm_compute. reflexivity. Qed.
Example json_recovery_3 : "[1 2]" ~> JList [JInt 1] says "at 1:4: expected ',' or ']' (skipped 1 token)".
Proof. vm_compute. reflexivity. Qed.
Example json_recovery_4 : "[1, , 2]" ~> JList [JInt 1; JInt 1; JInt 2] says "at 1:5: expected value (inserted 1)".
Proof. vm_compute. reflexivity. Qed.
Example json_recovery_5 : "[1, [{, 2]" ~> JList [JInt 1; JList [JDict []; JInt 2]] says
  "at 1:7: expected string or '}' (inserted '}'), at 1:11: expected ',' or ']' (inserted ']')".
Proof. vm_compute. reflexivity. Qed.
Example json_recovery_6 : "[1, }, 2]" ~> JList [JInt 1; JDict []; JInt 2] says "at 1:5: expected value (inserted '{')".
Proof. vm_compute. reflexivity. Qed.
Example json_recovery_7 : "{""key"": }" ~> JDict [(jsrc "key", JInt 1)] says "at 1:9: expected value (inserted 1)".
Proof. vm_compute. reflexivity. Qed.
Example json_recovery_8 : "{""key"": ]" ~> JDict [(jsrc "key", JList [])] says
  "at 1:9: expected value (inserted '['), at 1:10: expected ',' or '}' (inserted '}')".
Proof. vm_compute. reflexivity. Qed.
Example json_recovery_9 : "{""key"": 2]" ~> JDict [(jsrc "key", JInt 2)] says
  "at 1:10: expected ',' or '}' (inserted '}'), at 1:10: expected end of file (skipped 1 token)".
Proof. vm_compute. reflexivity. Qed.
Example json_recovery_10 : "{""key"": 0," ~> JDict [(jsrc "key", JInt 0); (jsrc "a", JInt 1)] says
  ("at 1:11: expected string (inserted '""a""'), at 1:11: expected ':' (inserted ':'), " ++
   "at 1:11: expected value (inserted 1), at 1:11: expected ',' or '}' (inserted '}')").
Proof. vm_compute. reflexivity. Qed.
Example json_recovery_11 : "{""key"": 0, ]" ~> JDict [(jsrc "key", JInt 0); (jsrc "a", JList [])] says
  ("at 1:12: expected string (inserted '""a""'), at 1:12: expected ':' (inserted ':'), " ++
   "at 1:12: expected value (inserted '['), at 1:13: expected ',' or '}' (inserted '}')").
Proof. vm_compute. reflexivity. Qed.
Example json_recovery_12 : "{""key"": @}" ~> JDict [(jsrc "key", JInt 1)] says
  "at 1:9: expected value (inserted 1), at 1:9: expected ',' or '}' (skipped 1 token)".
Proof. vm_compute. reflexivity. Qed.
Example json_recovery_13 : "{""a"", ""b"", ""c"", ""d""}" ~>
  JDict [(jsrc "a", j_str "b"); (jsrc "c", j_str "d")] says
  ("at 1:5: expected ':' (inserted ':'), at 1:5: expected value (skipped 1 token), " ++
   "at 1:15: expected ':' (inserted ':'), at 1:15: expected value (skipped 1 token)").
Proof. vm_compute. reflexivity. Qed.
