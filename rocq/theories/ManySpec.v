(** Specifications for many, sep_by, between, chainl1, chainr1, then. *)
From Verif Require Export SingleSpec.

Section ManySpec.
Context {T : Type} {V : nat -> Type}.
Notation gram := (gram T V).
Implicit Types E : env T V.

Definition nonempty {X} (l : list X) : bool := match l with [] => false | _ => true end.

(** the outcome of [p + q] (with [merge] applied to the two values) when [p]
    succeeded with [o] and [q]'s outcome is [rq]: [p]'s expected values remain
    relevant as long as [q] consumed nothing *)
Definition sequel {A B C} (merge : A -> B -> C) (o : okr T A) (rq : sres T B) : sres T C :=
  match rq with
  | SOk o' =>
      SOk {| ok_val := merge (ok_val o) (ok_val o'); ok_pos := ok_pos o'; ok_ctx := ok_ctx o';
             ok_exp := if ok_con o' then ok_exp o' else ok_exp o ++ ok_exp o';
             ok_con := ok_con o || ok_con o' |}
  | SErr e =>
      SErr {| er_loc := er_loc e;
              er_exp := if er_con e then er_exp e else ok_exp o ++ er_exp e;
              er_con := ok_con o || er_con e |}
  end.

(** [rounds E sep p s i c l j c']: alternating successes of [sep] and [p] from
    [i] to [j], each round consuming input, with values [l] *)
Inductive rounds E {X A} (sep : gram X) (p : gram A) (s : list T)
  : nat -> ctx T -> list (X * A) -> nat -> ctx T -> Prop :=
| rounds_nil i c : rounds E sep p s i c [] i c
| rounds_cons i c x k c1 b1 v j c2 b2 l e c3 :
    yields E sep s i c x k c1 b1 -> yields E p s k c1 v j c2 b2 -> b1 || b2 = true ->
    rounds E sep p s j c2 l e c3 ->
    rounds E sep p s i c ((x, v) :: l) e c3.
(** one more round fails ([b]: after consuming input) *)
Definition round_fails E {X A} (sep : gram X) (p : gram A) (s : list T) (i : nat) (c : ctx T) (b : bool) : Prop :=
  fails E sep s i c b \/
  exists x k c1 b1 b2, yields E sep s i c x k c1 b1 /\ fails E p s k c1 b2 /\ b = b1 || b2.
(** one more round raises: one of the parsers does, or the round succeeds
    without consuming *)
Definition round_raises E {X A} (sep : gram X) (p : gram A) (s : list T) (i : nat) (c : ctx T) (y : exn) : Prop :=
  raises E sep s i c y \/
  (exists x k c1 b1, yields E sep s i c x k c1 b1 /\ raises E p s k c1 y) \/
  (y = ManyEmpty /\ exists x k c1 v j c2, yields E sep s i c x k c1 false /\ yields E p s k c1 v j c2 false).

(** binary expressions; evaluation is left to right, the operands before the
    call *)
Inductive tree (A : Type) : Type :=
| Leaf (a : A)
| Node (f : A -> A -> out A) (l r : tree A).
Arguments Leaf {A}. Arguments Node {A}.
Fixpoint eval {A} (t : tree A) : out A :=
  match t with
  | Leaf a => Ret a
  | Node f l r => x <- eval l ;; y <- eval r ;; f x y
  end.
(** (((a f1 a1) f2 a2) ... fn an) *)
Definition left_tree {A} (a : A) (l : list ((A -> A -> out A) * A)) : tree A :=
  fold_left (fun t fb => Node (fst fb) t (Leaf (snd fb))) l (Leaf a).
(** (a f1 (a1 f2 (... fn an))) *)
Fixpoint right_tree {A} (a : A) (l : list ((A -> A -> out A) * A)) : tree A :=
  match l with
  | [] => Leaf a
  | (f, b) :: l => Node f (Leaf a) (right_tree b l)
  end.

(** the parsers [ps] succeed one after the other, from [i] to [j], with values
    [vs]; [b]: some input was consumed *)
Inductive in_order E {A} (s : list T) : list (gram A) -> nat -> ctx T -> list A -> nat -> ctx T -> bool -> Prop :=
| in_order_nil i c : in_order E s [] i c [] i c false
| in_order_cons p ps i c v k c1 b1 vs j c2 b2 :
    yields E p s i c v k c1 b1 -> in_order E s ps k c1 vs j c2 b2 ->
    in_order E s (p :: ps) i c (v :: vs) j c2 (b1 || b2).

End ManySpec.
Arguments Leaf {A}. Arguments Node {A}. Arguments tree A : clear implicits.
