(** Specification of regular expressions: the texts a pattern describes, and
    the backtracking search that decides which of them is matched. *)
From Verif Require Export Regex.
Local Open Scope N_scope.

Section RegexSpec.
Variable space digit : char -> bool.

(** the character [c] is listed between the brackets; [^...] allows the others *)
Fixpoint listed (c : char) (l : list item) : bool :=
  match l with
  | [] => false
  | IChar a :: l => if N.eqb c a then true else listed c l
  | IRange a b :: l => if N.ltb c a then listed c l else if N.ltb b c then listed c l else true
  | ISpace :: l => if space c then true else listed c l
  | IDigit :: l => if digit c then true else listed c l
  end.
Definition allowed (neg : bool) (l : list item) (c : char) : bool :=
  if neg then negb (listed c l) else listed c l.

(** the text [w] is described by the pattern *)
Inductive matches : regex -> list char -> Prop :=
| m_eps : matches REps []
| m_set neg l x : allowed neg l x = true -> matches (RSet neg l) [x]
| m_dot x : x <> 10 -> matches RDot [x]
| m_cat r1 r2 w1 w2 : matches r1 w1 -> matches r2 w2 -> matches (RCat r1 r2) (w1 ++ w2)
| m_alt1 r1 r2 w : matches r1 w -> matches (RAlt r1 r2) w
| m_alt2 r1 r2 w : matches r2 w -> matches (RAlt r1 r2) w
| m_star0 r : matches (RStar r) []
| m_star r w1 w2 : matches r w1 -> matches (RStar r) w2 -> matches (RStar r) (w1 ++ w2)
| m_group k name r w : matches r w -> matches (RGroup k name r) w.

(** the search: [search r s c k] looks for a match of [r] at the beginning of
    [s] such that the continuation [k], called with what is left, succeeds.
    The first alternative is tried before the second, another repetition before
    no more repetition, and what comes later is given up before what came
    earlier.  (A repetition that does not move is given up.) *)
Fixpoint search {X} (r : regex) (s : list char) (c : captures) (k : list char -> captures -> option X) : option X :=
  match r with
  | REps => k s c
  | RSet neg l => match s with x :: s' => if allowed neg l x then k s' c else None | [] => None end
  | RDot => match s with x :: s' => if N.eqb x 10 then None else k s' c | [] => None end
  | RCat r1 r2 => search r1 s c (fun s c => search r2 s c k)
  | RAlt r1 r2 => match search r1 s c k with Some x => Some x | None => search r2 s c k end
  | RStar r =>
      (fix again (n : nat) (s : list char) (c : captures) : option X :=
        match n with
        | O => k s c
        | S n =>
            match search r s c (fun s' c' => if Nat.ltb (List.length s') (List.length s) then again n s' c' else None) with
            | Some x => Some x
            | None => k s c
            end
        end) (List.length s) s c
  | RGroup g name r => search r s c (fun s' c' => k s' ((g, name, taken s s') :: c'))
  end.
End RegexSpec.

(** the group with number [k], name [name] and content [body] occurs in the pattern *)
Inductive group_in (k : nat) (name : option string) (body : regex) : regex -> Prop :=
| gi_here : group_in k name body (RGroup k name body)
| gi_cat1 r1 r2 : group_in k name body r1 -> group_in k name body (RCat r1 r2)
| gi_cat2 r1 r2 : group_in k name body r2 -> group_in k name body (RCat r1 r2)
| gi_alt1 r1 r2 : group_in k name body r1 -> group_in k name body (RAlt r1 r2)
| gi_alt2 r1 r2 : group_in k name body r2 -> group_in k name body (RAlt r1 r2)
| gi_star r : group_in k name body r -> group_in k name body (RStar r)
| gi_group k' name' r : group_in k name body r -> group_in k name body (RGroup k' name' r).
