(** The test data of tests/test_json_scannerless.py, run in the model: value,
    location, wording of the messages and repairs all agree with what the tests
    expect.  Floats are represented by their text. *)
From Verif Require Import Json JsonText JsonScan JsonTests.
Local Open Scope string_scope.

Definition ts_loads (x : string) : out (unwrapped (json (list char))) := sloads (fun s => s) 200 (jsrc x).

(** test_positive *)
Example scan_positive :
  map ts_loads ["1"; "12"; "-1"; "1.0"; "10.0"; "1.0e2"; "-1.0"; "true"; "false"; "null";
    dq ++ "string" ++ bs ++ "nvalue" ++ dq; "{}";
    "{""bool"": true, ""number"": 1}"; "{""nested"": {""bool"": false}}"; "[1, 2, 3]"; "[1, [2, 3]]"] =
  map (fun v => Ret (Returns v))
  [JInt 1; JInt 12; JInt (-1); j_num "1.0"; j_num "10.0"; j_num "1.0e2"; j_num "-1.0"; JBool true; JBool false; JNull;
    j_str ("string" ++ String (ascii_of_N 10) "" ++ "value"); JDict [];
    JDict [(jsrc "bool", JBool true); (jsrc "number", JInt 1)];
    JDict [(jsrc "nested", JDict [(jsrc "bool", JBool false)])];
    JList [JInt 1; JInt 2; JInt 3]; JList [JInt 1; JList [JInt 2; JInt 3]]].
Proof. vm_compute. reflexivity. Qed.

(** test_negative: [str(err.value)] *)
Definition ts_error (x : string) : option string :=
  match ts_loads x with Ret (Raises l) => Some (parse_error_str l) | _ => None end.
Example scan_negative :
  map ts_error [""; "1 1"; "{"; "{""key"""; "{""key"":"; "{""key"": 0"; "{""key"": 0,"; "["; "[0"; "[0,"] =
  map Some
  ["at 1:1: expected value";
   "at 1:3: expected end of file";
   "at 1:2: expected string or '}'";
   "at 1:7: expected ':'";
   "at 1:8: expected value";
   "at 1:10: expected ',' or '}'";
   "at 1:11: expected string";
   "at 1:2: expected value or ']'";
   "at 1:3: expected ',' or ']'";
   "at 1:4: expected value"].
Proof. vm_compute. reflexivity. Qed.

(** test_recovery: value with [unwrap(recover=True)], message without *)
Definition ts_recover (x : string) : option (json (list char) * string) :=
  match scannerless_parse (scan_E json_unescape json_int (fun s => s)) 200 scan_parser (jsrc x) true with
  | Ret r =>
      match unwrap r true, unwrap r false with
      | Returns v, Raises l => Some (v, parse_error_str l)
      | _, _ => None
      end
  | _ => None
  end.
Notation "x ~~> v 'says' m" := (ts_recover x = Some (v, m)) (at level 70).
Example scan_recovery_1 : "1 1" ~~> JInt 1 says "at 1:3: expected end of file (skipped 1 token)".
Proof. vm_compute. reflexivity. Qed.
Example scan_recovery_2 : "{" ~~> JDict [] says "at 1:2: expected string or '}' (inserted '}')".
Proof. vm_compute. reflexivity. Qed.
Example scan_recovery_3 : "[1 2]" ~~> JList [JInt 1] says "at 1:4: expected ',' or ']' (skipped 1 token)".
Proof. vm_compute. reflexivity. Qed.
Example scan_recovery_4 : "[1, , 2]" ~~> JList [JInt 1; JInt 1; JInt 2] says "at 1:5: expected value (inserted 1)".
Proof. vm_compute. reflexivity. Qed.
Example scan_recovery_5 : "[1, [{, 2]" ~~> JList [JInt 1; JList [JDict []; JInt 2]] says
  "at 1:7: expected string or '}' (inserted '}'), at 1:11: expected ',' or ']' (inserted ']')".
Proof. vm_compute. reflexivity. Qed.
Example scan_recovery_6 : "[1, }, 2]" ~~> JList [JInt 1; JDict []; JInt 2] says "at 1:5: expected value (inserted '{')".
Proof. vm_compute. reflexivity. Qed.
Example scan_recovery_7 : "{""key"": }" ~~> JDict [(jsrc "key", JInt 1)] says "at 1:9: expected value (inserted 1)".
Proof. vm_compute. reflexivity. Qed.
Example scan_recovery_8 : "{""key"": ]" ~~> JDict [(jsrc "key", JList [])] says
  "at 1:9: expected value (inserted '['), at 1:10: expected ',' or '}' (inserted '}')".
Proof. vm_compute. reflexivity. Qed.
Example scan_recovery_9 : "{""key"": 2]" ~~> JDict [(jsrc "key", JInt 2)] says
  "at 1:10: expected ',' or '}' (inserted '}'), at 1:10: expected end of file (skipped 1 token)".
Proof. vm_compute. reflexivity. Qed.
Example scan_recovery_10 : "{""key"": 0," ~~> JDict [(jsrc "key", JInt 0); (jsrc "a", JInt 1)] says
  ("at 1:11: expected string (inserted '""a""'), at 1:11: expected ':' (inserted ':'), " ++
   "at 1:11: expected value (inserted 1), at 1:11: expected ',' or '}' (inserted '}')").
Proof. vm_compute. reflexivity. Qed.
Example scan_recovery_11 : "{""key"": 0, ]" ~~> JDict [(jsrc "key", JInt 0); (jsrc "a", JList [])] says
  ("at 1:12: expected string (inserted '""a""'), at 1:12: expected ':' (inserted ':'), " ++
   "at 1:12: expected value (inserted '['), at 1:13: expected ',' or '}' (inserted '}')").
Proof. vm_compute. reflexivity. Qed.
Example scan_recovery_12 : "{""key"": @}" ~~> JDict [(jsrc "key", JInt 1)] says
  "at 1:9: expected value (inserted 1), at 1:9: expected ',' or '}' (skipped 1 token)".
Proof. vm_compute. reflexivity. Qed.
Example scan_recovery_13 : "{""a"", ""b"", ""c"", ""d""}" ~~>
  JDict [(jsrc "a", j_str "b"); (jsrc "c", j_str "d")] says
  ("at 1:5: expected ':' (inserted ':'), at 1:5: expected value (skipped 2 tokens), " ++
   "at 1:15: expected ':' (inserted ':'), at 1:15: expected value (skipped 2 tokens)").
Proof. vm_compute. reflexivity. Qed.
