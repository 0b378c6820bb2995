(** Tuples of values of different types: TupleParser.then, Tuple2 .. Tuple8.
    Definitions and specification; theorems in PropsTuple.v. *)
From Verif Require Export Grammar LawSpec.

(** Python tuples: [tuple [A; B; C]] is the type of (a, b, c) *)
Fixpoint tuple (l : list Type) : Type :=
  match l with [] => unit | A :: l => (A * tuple l)%type end.
(** the tuple of the elements of a, and b *)
Fixpoint snoc {l : list Type} {A : Type} : tuple l -> A -> tuple (l ++ [A]) :=
  match l return tuple l -> A -> tuple (l ++ [A]) with
  | [] => fun _ b => (b, tt)
  | B :: l => fun a b => (fst a, snoc (snd a) b)
  end.
(** the type of functions of [length l] arguments, and fn( *t) *)
Fixpoint fn_type (l : list Type) (R : Type) : Type :=
  match l with [] => out R | A :: l => A -> fn_type l R end.
Fixpoint call_fn {l : list Type} {R : Type} : fn_type l R -> tuple l -> out R :=
  match l return fn_type l R -> tuple l -> out R with
  | [] => fun r _ => r
  | A :: l => fun fn t => call_fn (fn (fst t)) (snd t)
  end.

Section TupleParser.
Context {T : Type} {V : nat -> Type}.
Notation gram := (gram T V).

(** A parser built by p.then(q).then(r)...: [TThen2] is TupleParser.then
    (parser.py:464-484), [TThen] is Tuple2.then .. Tuple7.then
    (parser.py:524-533, 554-563, 586-595, 620-629, 652-661, 686-695).
    Simplification: Python stops at eight values (Tuple8 has no then); here any
    number is allowed. *)
Inductive tparser : list Type -> Type :=
| TThen2 A B (p : gram A) (q : gram B) : tparser [A; B]
| TThen l A (t : tparser l) (q : gram A) : tparser (l ++ [A]).

(** core/combinators.py:196-233 seq (for TThen2), 236-290 tuple3 .. tuple8: all
    are [_seq] with their own merge function *)
Fixpoint tcode {l} (t : tparser l) : gram (tuple l) :=
  match t with
  | TThen2 A B p q => GSeq p q (fun a b => (a, (b, tt)))
  | TThen l A t q => GSeq (tcode t) q snoc
  end.
(** Tuple2.apply .. Tuple8.apply (parser.py:535-542 and so on): fmap(self, lambda t: fn( *t)) *)
Definition tapply {l R} (t : tparser l) (fn : fn_type l R) : gram R :=
  GFmap (tcode t) (fun vs => call_fn fn vs).

(** ** Specification: the parsers, one for each place of the tuple *)
Fixpoint parsers (l : list Type) : Type :=
  match l with [] => unit | A :: l => (gram A * parsers l)%type end.
Fixpoint psnoc {l A} : parsers l -> gram A -> parsers (l ++ [A]) :=
  match l return parsers l -> gram A -> parsers (l ++ [A]) with
  | [] => fun _ q => (q, tt)
  | B :: l => fun ps q => (fst ps, psnoc (snd ps) q)
  end.
(** the parsers in the order in which they were written *)
Fixpoint written {l} (t : tparser l) : parsers l :=
  match t with
  | TThen2 A B p q => (p, (q, tt))
  | TThen l A t q => psnoc (written t) q
  end.

(** they succeed one after another, each where the one before ended *)
Fixpoint in_turn (E : env T V) (s : list T) (l : list Type) :
    parsers l -> nat -> ctx T -> tuple l -> nat -> ctx T -> bool -> Prop :=
  match l return parsers l -> nat -> ctx T -> tuple l -> nat -> ctx T -> bool -> Prop with
  | [] => fun _ i c _ j c' b => j = i /\ c' = c /\ b = false
  | A :: l => fun ps i c vs j c' b =>
      exists k c1 b1 b2, yields E (fst ps) s i c (fst vs) k c1 b1 /\
        in_turn E s l (snd ps) k c1 (snd vs) j c' b2 /\ b = b1 || b2
  end.
(** the first parsers succeed one after another, the next one fails, [b]: some
    input was consumed *)
Fixpoint fails_in_turn (E : env T V) (s : list T) (l : list Type) :
    parsers l -> nat -> ctx T -> bool -> Prop :=
  match l return parsers l -> nat -> ctx T -> bool -> Prop with
  | [] => fun _ _ _ _ => False
  | A :: l => fun ps i c b =>
      fails E (fst ps) s i c b \/
      exists v k c1 b1 b2, yields E (fst ps) s i c v k c1 b1 /\
        fails_in_turn E s l (snd ps) k c1 b2 /\ b = b1 || b2
  end.
Fixpoint raises_in_turn (E : env T V) (s : list T) (l : list Type) :
    parsers l -> nat -> ctx T -> exn -> Prop :=
  match l return parsers l -> nat -> ctx T -> exn -> Prop with
  | [] => fun _ _ _ _ => False
  | A :: l => fun ps i c x =>
      raises E (fst ps) s i c x \/
      exists v k c1 b1, yields E (fst ps) s i c v k c1 b1 /\ raises_in_turn E s l (snd ps) k c1 x
  end.
(** p + (q + (r + ...)), the values in a tuple *)
Fixpoint nested (l : list Type) : parsers l -> gram (tuple l) :=
  match l return parsers l -> gram (tuple l) with
  | [] => fun _ => GPure tt
  | A :: l => fun ps => GSeq (fst ps) (nested l (snd ps)) (fun a b => (a, b))
  end.
Fixpoint wf_all (l : list Type) : parsers l -> Prop :=
  match l return parsers l -> Prop with
  | [] => fun _ => True
  | A :: l => fun ps => wf (fst ps) /\ wf_all l (snd ps)
  end.
End TupleParser.
Arguments tparser T V l : clear implicits.
Arguments parsers T V l : clear implicits.
