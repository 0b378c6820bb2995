(** What the tutorial's list parser is meant to do with every text, written down
    without parsers: how a list of numbers is read, and what becomes of mistakes. *)
From Coq Require Export List NArith ZArith String.
Import ListNotations.
From Verif Require Export Tutorial.

Section Spec.
Variable isdigit isspace : char -> bool.
Variable decimal : char -> option Z.

(** ** Texts without mistakes *)
(** digits, most significant first *)
Inductive decimal_text : list char -> Z -> Prop :=
| dt_one c d : isdigit c = true -> decimal c = Some d -> decimal_text [c] d
| dt_more x z c d : decimal_text x z -> isdigit c = true -> decimal c = Some d -> decimal_text (x ++ [c]) (10 * z + d)%Z.
Definition white (w : list char) : Prop := Forall (fun c => isspace c = true) w.
(** numbers separated by commas, white space anywhere between the tokens *)
Inductive numbers : list char -> list Z -> Prop :=
| ns_one x z w : decimal_text x z -> white w -> numbers (x ++ w) [z]
| ns_more x z w w' s l : decimal_text x z -> white w -> white w' -> numbers s l ->
    numbers (x ++ w ++ 44%N :: w' ++ s) (z :: l).
Inductive number_list : list char -> list Z -> Prop :=
| nl_none w : white w -> number_list w []
| nl_some w s l : white w -> numbers s l -> number_list (w ++ s) l.

(** ** All texts *)
(** a mistake: where, what was done about it, what was expected there *)
Record mistake := { mk_pos : nat; mk_op : rop; mk_exp : list string }.
(** the error that reports it, [at_] being the locations of the positions *)
Definition shown (at_ : nat -> loc) (fmt : loc -> string) (m : mistake) : erroritem :=
  {| ei_loc := at_ (mk_pos m); ei_loc_str := fmt (at_ (mk_pos m)); ei_expected := mk_exp m; ei_op := Some (mk_op m) |}.
Definition price (m : mistake) : nat := match mk_op m with Skip n => n | Insert _ => 1 end.
Definition prices (l : list mistake) : nat := list_sum (map price l).

(** how many characters at the beginning are in a class *)
Fixpoint prefix (f : char -> bool) (s : list char) : nat :=
  match s with c :: s => if f c then S (prefix f s) else 0 | [] => 0 end.
(** where the first character of a class is *)
Fixpoint find (f : char -> bool) (s : list char) : option nat :=
  match s with
  | c :: s => if f c then Some 0 else option_map S (find f s)
  | [] => None
  end.
Definition value (x : list char) : Z :=
  fold_left (fun a c => (10 * a + match decimal c with Some d => d | None => 0 end)%Z) x 0%Z.

(** [readings n p X s]: [s] is what is left at position [p], behind a number (or
    its placeholder); [X] is what could continue that number (and is forgotten for
    numbers behind a comma, unless something was skipped: see C53).  [n] bounds
    the number of commas. *)
Fixpoint readings (n p : nat) (X : list string) (s : list char) : list Z * list mistake :=
  match n, s with
  | S n, 44%N :: s =>
      (* a comma, and white space *)
      let w := prefix isspace s in
      let t := skipn w s in
      let q := p + 1 + w in
      (* a number that begins [d] characters later, and all that follows *)
      let number d :=
        let k := prefix isdigit (skipn d t) in
        let u := skipn (d + k) t in
        let w' := prefix isspace u in
        let (l, e) := readings n (q + d + k + w') (if (0 <? d) && (w' =? 0) then ["digit"%string] else []) (skipn w' u) in
        (value (firstn k (skipn d t)) :: l, e) in
      match find isdigit t with
      | Some 0 => number 0
      | d =>
          (* no number here: 0 takes its place ... *)
          let (l, e) := readings n q [] t in
          let insert := (0%Z :: l, {| mk_pos := q; mk_op := Insert "0"; mk_exp := ["number"%string] |} :: e) in
          match d with
          | None => insert
          | Some d =>
              (* ... unless it is cheaper to skip to the next digit *)
              let (l, e) := number d in
              let skip := (l, {| mk_pos := q; mk_op := Skip d; mk_exp := ["number"%string] |} :: e) in
              if prices (snd skip) <? prices (snd insert) then skip else insert
          end
      end
  | _, [] => ([], [])
  | _, _ => (* no comma: the list ends here *)
      ([], [{| mk_pos := p; mk_op := Skip (List.length s); mk_exp := X ++ ["','"; "end of file"]%string |}])
  end.

(** the whole text *)
Definition reading (s : list char) : list Z * list mistake :=
  let w := prefix isspace s in
  let t := skipn w s in
  match prefix isdigit t, t with
  | 0, [] => ([], [])
  | 0, _ => ([], [{| mk_pos := w; mk_op := Skip (List.length t); mk_exp := ["number"; "end of file"]%string |}])
  | k, _ =>
      let u := skipn k t in
      let w' := prefix isspace u in
      let (l, e) := readings (List.length s) (w + k + w') (if w' =? 0 then ["digit"%string] else []) (skipn w' u) in
      (value (firstn k t) :: l, e)
  end.

(** ** Texts in which only numbers are missing *)
(** [gapped s l ps]: a list in which numbers are missing behind commas; [l] has 0 in
    their places, [ps] are these places (offsets in [s]). *)
Inductive gapped : list char -> list Z -> list nat -> Prop :=
| gp_last x z w : decimal_text x z -> white w -> gapped (x ++ w) [z] []
| gp_number x z w w' s l ps : decimal_text x z -> white w -> white w' -> gapped s l ps ->
    let begin : list char := x ++ w ++ 44%N :: w' in
    gapped (begin ++ s) (z :: l) (map (Nat.add (List.length begin)) ps)
| gp_gap x z w w' s l ps : decimal_text x z -> white w -> white w' -> gaps s l ps ->
    let begin : list char := x ++ w ++ 44%N :: w' in
    gapped (begin ++ s) (z :: 0%Z :: l) (List.length begin :: map (Nat.add (List.length begin)) ps)
(** what follows a gap: nothing, or a comma and then another gap or a number *)
with gaps : list char -> list Z -> list nat -> Prop :=
| ga_last : gaps [] [] []
| ga_gap w s l ps : white w -> gaps s l ps ->
    let begin : list char := 44%N :: w in
    gaps (begin ++ s) (0%Z :: l) (List.length begin :: map (Nat.add (List.length begin)) ps)
| ga_number w s l ps : white w -> gapped s l ps ->
    let begin : list char := 44%N :: w in
    gaps (begin ++ s) l (map (Nat.add (List.length begin)) ps).

(** Facts about the characters: digits are not white space, commas are neither *)
Record tut_chars : Prop := {
  tc_digit : forall c, isdigit c = true -> isspace c = false;
  tc_comma : isdigit 44%N = false /\ isspace 44%N = false }.
(** every digit of the text is a decimal one *)
Definition all_decimal (s : list char) : Prop := forall c, In c s -> isdigit c = true -> decimal c <> None.
End Spec.
