(** Model of Delay objects (parser.py:740-806) and of how parser objects
    capture each other's functions ([to_fns]) when they are built and when a
    Delay is defined. *)
From Verif Require Export CongrSpec Api.

Section Delay.
Context {T : Type} {V : nat -> Type}.
Notation gram := (gram T V).

(** A parser object: a Delay, or an object that holds a pair of functions
    (parser.py:487-507 _FnParseObj: FnParser, _Tuple2, ...).  The functions are denoted by
    the parser [g] they run; inside [g], [GDelay d] stands for the bound
    methods of Delay [d] ([parse_fast_fn], [parse_fn]), which look up the
    functions of [d] when called (parser.py:793-801). *)
Inductive pobj : Type -> Type :=
| ODelay (d : nat) : pobj (V d)
| OFns {A} (g : gram A) : pobj A.

(** parser.py:765-766  the attributes of the Delays: [_defined], [_fns] *)
Record dstate : Type := DState { ds_defined : nat -> bool; ds_fns : env T V }.

(** parser.py:754-766  Delay.__init__: not defined, the functions raise *)
Definition ds_init : dstate := DState (fun _ => false) (fun _ => GUndef).

(** parser.py:803-806 Delay.to_fns, 491-492 _FnParseObj.to_fns,
    core/parser.py:45-46 ParseObj.to_fns *)
Definition to_fns (st : dstate) {A} (o : pobj A) : gram A :=
  match o with
  | ODelay d => if ds_defined st d then ds_fns st d else GDelay d
  | OFns g => g
  end.

(** assignment to an attribute of Delay [d] *)
Definition upd {P : nat -> Type} (f : forall d, P d) (d : nat) (x : P d) : forall d, P d :=
  fun d' => match Nat.eq_dec d d' with
            | left e => eq_rect d P x d' e
            | right _ => f d'
            end.

(** parser.py:768-791  Delay.define.  [_defined] is set before [to_fns] is
    called.  The result is the new state and the outcome of the call. *)
Definition define (st : dstate) (d : nat) (o : pobj (V d)) : dstate * out unit :=
  if ds_defined st d then (st, Raise DelayRedefined)
  else
    let st := DState (upd (P:=fun _ => bool) (ds_defined st) d true) (ds_fns st) in
    (DState (ds_defined st) (upd (ds_fns st) d (to_fns st o)), Ret tt).

(** the functions that [o.parse] runs (parser.py:49-54): a Delay's methods, or
    the functions held by the object *)
Definition methods {A} (o : pobj A) : gram A :=
  match o with ODelay d => GDelay d | OFns g => g end.

(** parser.py:30-55  Parser.parse called on the object [o] *)
Definition obj_parse {A} (st : dstate) (n : nat) (o : pobj A) (s : list T) (recover : bool)
    (k : Z) (get : loc -> list T -> nat -> loc) (fmt : loc -> string) : out (presult T A) :=
  parse (ds_fns st) n (methods o) s recover k get fmt.

(** Evaluation of the expression [w] in state [st] (all its combinator calls
    made now; parser.py:809-958): Delays are named by [GDelay]. *)
Fixpoint build (st : dstate) {A} (w : gram A) : pobj A :=
  match w in Grammar.gram _ _ A return pobj A with
  | GPure x => OFns (GPure x)
  | GPureFn f => OFns (GPureFn f)
  | GUnexpected l => OFns (GUnexpected l)
  | GEof => OFns GEof
  | GSatisfy test => OFns (GSatisfy test)
  | GSym teq x l => OFns (GSym teq x l)
  | GLiteral teq x l => OFns (GLiteral teq x l)
  | GRegexp m => OFns (GRegexp m)
  | GFmap p f => OFns (GFmap (to_fns st (build st p)) f)
  | GAlt p q => OFns (GAlt (to_fns st (build st p)) (to_fns st (build st q)))
  | GBind p f => OFns (GBind (to_fns st (build st p)) (fun x => methods (build st (f x))))
  | GSeq p q merge => OFns (GSeq (to_fns st (build st p)) (to_fns st (build st q)) merge)
  | GMaybe p => OFns (GMaybe (to_fns st (build st p)))
  | GMany p => OFns (GMany (to_fns st (build st p)))
  | GAttempt p => OFns (GAttempt (to_fns st (build st p)))
  | GLabel p x => OFns (GLabel (to_fns st (build st p)) x)
  | GRecover p => OFns (GRecover (to_fns st (build st p)))
  | GRecoverWith p x l => OFns (GRecoverWith (to_fns st (build st p)) x l)
  | GRecoverWithFn p fn lab => OFns (GRecoverWithFn (to_fns st (build st p)) fn lab)
  | GBlock p => OFns (GBlock (to_fns st (build st p)))
  | GAligned p => OFns (GAligned (to_fns st (build st p)))
  | GIndented delta p => OFns (GIndented delta (to_fns st (build st p)))
  | GDelay d => ODelay d
  | GUndef => OFns GUndef
  end.

End Delay.
Arguments pobj T V A : clear implicits.
Arguments dstate T V : clear implicits.
