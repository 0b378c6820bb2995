(** Model of src/reparsec/core/layout.py *)
From Verif Require Export Prims.

Section Layout.
Context {T A : Type}.

Definition indentation : string := "indentation".

(** core/layout.py:12-19  _block_fast *)
Definition block_fast (p : pfast T A) : pfast T A :=
  fun s pos c =>
    let c := update_loc c s pos in
    r <- p s pos (set_mark c (loc_col (ctx_loc c))) ;;
    Ret (sres_set_ctx c r).

(** core/layout.py:22-33  _block *)
Definition block_full (p : pfull T A) : pfull T A :=
  fun s pos c ins rem =>
    let c := update_loc c s pos in
    r <- p s pos (set_mark c (loc_col (ctx_loc c))) ins rem ;;
    Ret (res_set_ctx c r).

(** core/layout.py:40-49  _aligned_fast *)
Definition aligned_fast (p : pfast T A) : pfast T A :=
  fun s pos c =>
    let c := update_loc c s pos in
    if Z.eqb (ctx_mark c) (loc_col (ctx_loc c)) then p s pos c
    else Ret (SErr (Err (ctx_loc c) [indentation] false)).

(** core/layout.py:52-63  _aligned *)
Definition aligned_full (p : pfull T A) : pfull T A :=
  fun s pos c ins rem =>
    let c := update_loc c s pos in
    if Z.eqb (ctx_mark c) (loc_col (ctx_loc c)) then p s pos c ins rem
    else Ret (RErr (Err (ctx_loc c) [indentation] false)).

(** core/layout.py:70-80  _indented_fast *)
Definition indented_fast (delta : Z) (p : pfast T A) : pfast T A :=
  fun s pos c =>
    let c := update_loc c s pos in
    let level := loc_col (ctx_loc c) in
    if Z.eqb (ctx_mark c + delta) level then
      r <- p s pos (set_mark c level) ;; Ret (sres_set_ctx c r)
    else Ret (SErr (Err (ctx_loc c) [indentation] false)).

(** core/layout.py:83-97  _indented *)
Definition indented_full (delta : Z) (p : pfull T A) : pfull T A :=
  fun s pos c ins rem =>
    let c := update_loc c s pos in
    let level := loc_col (ctx_loc c) in
    if Z.eqb (ctx_mark c + delta) level then
      r <- p s pos (set_mark c level) ins rem ;; Ret (res_set_ctx c r)
    else Ret (RErr (Err (ctx_loc c) [indentation] false)).

End Layout.
