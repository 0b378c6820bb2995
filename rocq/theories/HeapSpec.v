(** What the references of Heap.v denote, and which objects they reach:
    specification. *)
From Verif Require Export Heap.

Section HeapSpec.
Context {T : Type}.
Notation heap := (heap T).

(** ** The immutable result an object denotes in heap [h] *)
Definition rd_op (h : heap) (o : hop) : opitem :=
  let c := h_cell h (hp_addr o) in OpItem (hp_op o) (hp_loc o) (c_exp c) (c_con c).
Definition rd_rep {A} (h : heap) (r : hrep A) : repair T A :=
  let c := h_cell h (hr_addr r) in
  Repair (hr_cost r) (c_prio c) (hr_ins r) (map (rd_op h) (hr_ops r)) (hr_val r) (hr_pos r)
    (c_ctx c) (c_exp c) (c_con c).
Definition rd_ok {A} (h : heap) (o : hok A) : okr T A :=
  let c := h_cell h (hk_addr o) in Ok (hk_val o) (hk_pos o) (c_ctx c) (c_exp c) (c_con c).
Definition rd_err (h : heap) (e : herr) : errr :=
  let c := h_cell h (he_addr e) in Err (he_loc e) (c_exp c) (c_con c).
Definition rd_rec {A} (h : heap) (r : hrec A) : recr T A :=
  let c := h_cell h (hc_addr r) in
  Recd (map (rd_rep h) (hc_reps r)) (hc_min r) (hc_loc r) (c_exp c) (c_con c).
Definition rd_s {A} (h : heap) (r : hsres A) : sres T A :=
  match r with HSOk o => SOk (rd_ok h o) | HSErr e => SErr (rd_err h e) end.
Definition rd {A} (h : heap) (r : hres A) : res T A :=
  match r with
  | HROk o => ROk (rd_ok h o) | HRErr e => RErr (rd_err h e) | HRRec r => RRec (rd_rec h r)
  end.
Definition rd_p {A} (h : heap) (r : hpresult A) : presult T A :=
  ResultWrapper (rd h (hpr_result r)) (hpr_fmt r).

(** ** The objects reachable from a reference *)
Definition rep_addrs {A} (r : hrep A) : list nat := hr_addr r :: map hp_addr (hr_ops r).
Definition s_addrs {A} (r : hsres A) : list nat := [hs_addr r].
Definition addrs {A} (r : hres A) : list nat :=
  h_addr r :: match r with HRRec r => flat_map rep_addrs (hc_reps r) | _ => [] end.

(** [h'] is [h] with further objects: none of [h]'s objects has changed *)
Definition extends (h h' : heap) : Prop :=
  h_next h <= h_next h' /\ forall a, a < h_next h -> h_cell h' a = h_cell h a.

(** all objects in [l] exist in [h'], did not exist in [h], and none occurs twice *)
Definition fresh_objects (h h' : heap) (l : list nat) : Prop :=
  NoDup l /\ forall a, In a l -> h_next h <= a < h_next h'.

End HeapSpec.

(** ** Programs that use the API: parse, fmap and unwrap, in any order *)
Section Programs.
Context {T : Type} {V : nat -> Type} (E : env T V).

(** A result the program holds: its value type is hidden. *)
Inductive held : Type := Held (A : Type) (r : hpresult A).
Inductive fheld : Type := FHeld (A : Type) (r : presult T A).
Arguments Held {A}. Arguments FHeld {A}.
Definition rd_held (h : heap T) (x : held) : fheld :=
  match x with Held r => FHeld (rd_p h r) end.

(** The calls, with what they return or raise recorded. *)
Inductive step : heap T * list held -> heap T * list held -> Prop :=
| st_parse h l A n (g : gram T V A) s rec k getl fmt h' r :
    hparse E n g s rec k getl fmt h = (h', Ret r) -> step (h, l) (h', l ++ [Held r])
| st_parse_raises h l A n (g : gram T V A) s rec k getl fmt h' e :
    hparse E n g s rec k getl fmt h = (h', Raise e) -> step (h, l) (h', l)
| st_fmap h l A B (r : hpresult A) (f : A -> out B) h' r' :
    In (Held r) l -> hpresult_fmap f r h = (h', Ret r') -> step (h, l) (h', l ++ [Held r'])
| st_fmap_raises h l A B (r : hpresult A) (f : A -> out B) h' e :
    In (Held r) l -> hpresult_fmap f r h = (h', Raise e) -> step (h, l) (h', l)
| st_unwrap h l A (r : hpresult A) rec h' v :
    In (Held r) l -> hunwrap r rec h = (h', Ret v) -> step (h, l) (h', l).

(** the heap holds nothing at the start *)
Inductive steps : heap T * list held -> heap T * list held -> Prop :=
| ss_nil x : steps x x
| ss_cons x y z : step x y -> steps y z -> steps x z.
End Programs.
Arguments held : clear implicits.
Arguments Held {A}. Arguments FHeld {T A}.
