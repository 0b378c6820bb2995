(** Properties C58 and C60, exactly, with recovery: the number of calls and their
    nesting are those that the rules of [RTallySpec.v] give. *)
From Verif Require Import PropsPeg RTallyCost PropsTally PropsRec PropsCostFull PropsDepth PropsTotal Examples.
From Coq Require Import Lia.

Section Unique.
Context {T : Type} {V : nat -> Type}.
Variable op : nat -> nat -> nat.
Variable E : env T V.
Variable s : list T.
Variable get : loc -> list T -> nat -> loc.
Variable locof : nat -> loc.
Variable lay : Prop.
Hypothesis Hco : cohere get s locof.
Hypothesis Hlay : lay -> exactpos s locof.
Hypothesis HE : forall d, gok lay (E d).
Notation rtl := (rtally op E s locof).
Notation rtls := (rtallies op E s locof).
Notation outcome := (rsem E s locof).
Notation gram := (gram T V).

Definition rtally_match {A} (g : gram A) (m : Z) (i : nat) (ins : Z) (rem : option Z) (k : nat) : Prop :=
  match g with
  | GFmap p _ | GLabel p _ | GRecover p | GRecoverWith p _ _ | GRecoverWithFn p _ _ =>
      exists a, rtl _ p m i ins rem a /\ k = S a
  | GMaybe p => exists a, rtl _ p m i ins None a /\ k = S a
  | GAttempt p =>
      match rem with
      | Some lft => exists a, rtl _ p m i ins (Some lft) a /\ k = S a
      | None => exists a, tally op E s locof _ p m i a /\ k = S a
      end
  | GAlt p q =>
      (exists o a, outcome _ p m i ins None o /\ settled o /\ rtl _ p m i ins None a /\ k = S a) \/
      (exists l X o a b, outcome _ p m i ins None (RFail false l X) /\ outcome _ q m i ins None o /\
         (settled o \/ rem = None) /\ rtl _ p m i ins None a /\ rtl _ q m i ins None b /\ k = S (op a b)) \/
      (exists lft l X l' Y o a b c d, rem = Some lft /\ outcome _ p m i ins None (RFail false l X) /\
         outcome _ q m i ins None (RFail false l' Y) /\ outcome _ p m i ins (Some lft) o /\ ~ is_exn o /\
         rtl _ p m i ins None a /\ rtl _ q m i ins None b /\
         rtl _ p m i ins (Some lft) c /\ rtl _ q m i ins (Some lft) d /\ k = S (op a (op b (op c d)))) \/
      (exists lft l X l' Y o a b c, rem = Some lft /\ outcome _ p m i ins None (RFail false l X) /\
         outcome _ q m i ins None (RFail false l' Y) /\ outcome _ p m i ins (Some lft) o /\ is_exn o /\
         rtl _ p m i ins None a /\ rtl _ q m i ins None b /\
         rtl _ p m i ins (Some lft) c /\ k = S (op a (op b c)))
  | GBind p f =>
      (exists o a, outcome _ p m i ins rem o /\ ends_sequence o /\ rtl _ p m i ins rem a /\ k = S a) \/
      (exists v j X a b, outcome _ p m i ins rem (RSucc v j X) /\ rtl _ p m i ins rem a /\
         rtl _ (f v) m j ins (if Nat.ltb i j then Some ins else rem) b /\ k = S (op a b)) \/
      (exists n b l X rs a c, outcome _ p m i ins rem (ROffer n b l X rs) /\ rtl _ p m i ins rem a /\
         rtls _ _ f m ins rs c /\ k = S (op a c))
  | GSeq p q _ =>
      (exists o a, outcome _ p m i ins rem o /\ ends_sequence o /\ rtl _ p m i ins rem a /\ k = S a) \/
      (exists v j X a b, outcome _ p m i ins rem (RSucc v j X) /\ rtl _ p m i ins rem a /\
         rtl _ q m j ins (if Nat.ltb i j then Some ins else rem) b /\ k = S (op a b)) \/
      (exists n b l X rs a c, outcome _ p m i ins rem (ROffer n b l X rs) /\ rtl _ p m i ins rem a /\
         rtls _ _ (fun _ => q) m ins rs c /\ k = S (op a c))
  | GMany p =>
      (exists o a, outcome _ p m i ins None o /\ (ends_sequence o \/ exists v X, o = RSucc v i X) /\
         rtl _ p m i ins None a /\ k = S a) \/
      (exists v j X a b, outcome _ p m i ins None (RSucc v j X) /\ i < j /\ rtl _ p m i ins None a /\
         rtl _ (GMany p) m j ins rem (S b) /\ k = S (op a b)) \/
      (exists n b l X rs a c, outcome _ p m i ins None (ROffer n b l X rs) /\ rtl _ p m i ins None a /\
         rtls _ _ (fun _ => GMany p) m ins rs c /\ k = S (op a c))
  | GBlock p => exists a, rtl _ p (loc_col (locof i)) i ins rem a /\ k = S a
  | GAligned p =>
      (loc_col (locof i) = m /\ exists a, rtl _ p m i ins rem a /\ k = S a) \/ (loc_col (locof i) <> m /\ k = 1)
  | GIndented d p =>
      (loc_col (locof i) = (m + d)%Z /\ exists a, rtl _ p (loc_col (locof i)) i ins rem a /\ k = S a) \/
      (loc_col (locof i) <> (m + d)%Z /\ k = 1)
  | GDelay d => exists a, rtl _ (E d) m i ins rem a /\ k = S a
  | _ => k = 1
  end.
Lemma rtally_inv A (g : gram A) m i ins rem k : rtl A g m i ins rem k -> rtally_match g m i ins rem k.
Proof using.
  intros H. destruct H; cbn [rtally_match]; eauto 12.
  1: { destruct g; try reflexivity; destruct H. }
  all: first [solve [right; left; eauto 12] | solve [right; right; eauto 12] |
              solve [right; right; left; eauto 20] | solve [right; right; right; eauto 20]].
Qed.
Definition rtallies_match {A B} (k : A -> gram B) (m ins : Z) (rs : list (offer A)) (n : nat) : Prop :=
  match rs with
  | [] => n = 0
  | r :: rs =>
      (exists o a c, outcome B (k (f_val r)) m (f_pos r) ins (Some (f_left r)) o /\ ~ is_exn o /\
         rtl B (k (f_val r)) m (f_pos r) ins (Some (f_left r)) a /\ rtls A B k m ins rs c /\ n = op a c) \/
      (exists o, outcome B (k (f_val r)) m (f_pos r) ins (Some (f_left r)) o /\ is_exn o /\
         rtl B (k (f_val r)) m (f_pos r) ins (Some (f_left r)) n)
  end.
Lemma rtallies_inv A B (k : A -> gram B) m ins rs n : rtls A B k m ins rs n -> rtallies_match k m ins rs n.
Proof using. intros H. destruct H; cbn; eauto 12. Qed.

Let cx (m : Z) (i : nat) : ctx T := Ctx m (locof i) get.
Lemma cx_ok m i : pos_Cok (T:=T) get locof i (cx m i).
Proof using. split; [reflexivity|right; exists i; auto]. Qed.
Lemma rdet A (g : gram A) m i ins rem o o' : gok lay g -> i <= List.length s ->
  outcome A g m i ins rem o -> outcome A g m i ins rem o' -> o = o'.
Proof using Hco Hlay HE.
  intros Hg Hi H H'.
  destruct (rec_complete E s get locof lay Hco Hlay HE _ _ _ _ _ _ _ H Hg Hi (cx m i) (cx_ok m i) eq_refl) as [n Hn].
  destruct (rec_complete E s get locof lay Hco Hlay HE _ _ _ _ _ _ _ H' Hg Hi (cx m i) (cx_ok m i) eq_refl) as [n' Hn'].
  assert (K : full E n g s i (cx m i) ins rem = full E n' g s i (cx m i) ins rem).
  { apply full_agree; intros K; rewrite K in *; discriminate. }
  rewrite K in Hn. congruence.
Qed.
Lemma rends A (g : gram A) m i ins rem v j X : gok lay g -> i <= List.length s ->
  outcome A g m i ins rem (RSucc v j X) -> j <= List.length s.
Proof using Hco Hlay HE.
  intros Hg Hi H.
  pose proof (rec_complete E s get locof lay Hco Hlay HE _ _ _ _ _ _ _ H Hg Hi (cx m i) (cx_ok m i) eq_refl) as R.
  destruct (rreach_succ E s get locof lay Hco Hlay HE _ _ _ _ _ _ _ _ _ Hg Hi (cx_ok m i) R) as (_ & _ & _ & _ & _ & _ & K & _).
  apply K.
Qed.
Definition inside {A} (rs : list (offer A)) : Prop := Forall (fun r => f_pos r <= List.length s) rs.
Lemma rinside A (g : gram A) m i ins rem n b l X rs : gok lay g -> i <= List.length s ->
  outcome A g m i ins rem (ROffer n b l X rs) -> inside rs.
Proof using Hco Hlay HE.
  intros Hg Hi H.
  pose proof (rec_complete E s get locof lay Hco Hlay HE _ _ _ _ _ _ _ H Hg Hi (cx m i) (cx_ok m i) eq_refl) as R.
  destruct (rreach_offer E s get locof lay Hco Hlay HE _ _ _ _ _ _ _ _ _ _ _ Hg Hi (cx_ok m i) R) as (_ & reps & _ & <- & K).
  unfold inside. apply Forall_forall. intros r Hr. apply in_map_iff in Hr as (r' & <- & Hr).
  rewrite Forall_forall in K. apply (K _ Hr).
Qed.

Definition U1 A (g : gram A) m i ins rem k : Prop :=
  gok lay g -> i <= List.length s -> forall k', rtl A g m i ins rem k' -> k' = k.
Definition U2 A B (f : A -> gram B) m ins (rs : list (offer A)) k : Prop :=
  (forall v, gok lay (f v)) -> inside rs -> forall k', rtls A B f m ins rs k' -> k' = k.
Scheme rtally_mut := Minimality for rtally Sort Prop
  with rtallies_mut := Minimality for rtallies Sort Prop.

Ltac absurd_ends H := exfalso; destruct H as [(? & ? & ? & ?)|(? & ?)]; congruence.

Theorem rtally_unique A (g : gram A) m i ins rem k : rtl A g m i ins rem k -> U1 A g m i ins rem k.
Proof using Hco Hlay HE.
  intros H0.
  assert (TU : forall A (p : gram A) m i k k', gok lay p -> i <= List.length s ->
    tally op E s locof A p m i k -> tally op E s locof A p m i k' -> k' = k).
  { intros A' p m' i' k1 k2 G L H1 H2. eapply (tally_unique op E s get locof lay Hco Hlay HE); eauto. }
  refine (rtally_mut T V op E s locof U1 U2 _ _ _ _ _ _ _ _ _ _ _ _ _ _ _ _ _ _ _ _ _ _ _ _ _ _ _ _ _ _ _ A g m i ins rem k H0);
    unfold U1, U2; clear A g m i ins rem k H0.
  - intros A g m i ins rem P Hg Hi k' H'. apply rtally_inv in H'. destruct g; cbn in H'; try exact H'; destruct P.
  - intros A B p f m i ins rem k H IH Hg Hi k' H'. apply rtally_inv in H'. destruct H' as (a & H' & ->).
    f_equal. apply IH; auto. apply Hg.
  - (* alt one *) intros A p q m i ins rem o k O Hs H IH Hg Hi k' H'. simpl in Hg. destruct Hg as (_ & G1 & G2).
    apply rtally_inv in H'. cbn [rtally_match] in H'.
    destruct H' as [(o' & a & O' & S' & H' & ->)|[(l & X & o' & a & b & O' & _)|[(lft & l & X & l' & Y & o' & a & b & c & d & -> & O' & _)|(lft & l & X & l' & Y & o' & a & b & c & -> & O' & _)]]].
    + f_equal. apply IH; auto.
    + rewrite (rdet _ _ _ _ _ _ _ _ G1 Hi O O') in Hs. discriminate.
    + rewrite (rdet _ _ _ _ _ _ _ _ G1 Hi O O') in Hs. discriminate.
    + rewrite (rdet _ _ _ _ _ _ _ _ G1 Hi O O') in Hs. discriminate.
  - (* alt two *) intros A p q m i ins rem l X o a b O O2 Hs H IH H2 IH2 Hg Hi k' H'. simpl in Hg. destruct Hg as (_ & G1 & G2).
    apply rtally_inv in H'. cbn [rtally_match] in H'.
    destruct H' as [(o' & a' & O' & S' & H' & ->)|[(l' & X' & o' & a' & b' & O' & O2' & S' & H' & H2' & ->)|
      [(lft & l1 & X1 & l' & Y & o' & a' & b' & c & d & -> & O' & O2' & _)|(lft & l1 & X1 & l' & Y & o' & a' & b' & c & -> & O' & O2' & _)]]].
    + rewrite <- (rdet _ _ _ _ _ _ _ _ G1 Hi O O') in S'. discriminate.
    + rewrite (IH G1 Hi _ H'), (IH2 G2 Hi _ H2'). reflexivity.
    + rewrite (rdet _ _ _ _ _ _ _ _ G2 Hi O2 O2') in Hs. destruct Hs; discriminate.
    + rewrite (rdet _ _ _ _ _ _ _ _ G2 Hi O2 O2') in Hs. destruct Hs; discriminate.
  - (* alt again *) intros A p q m i ins lft l X l' Y o a b c d O O2 O3 N H IH H2 IH2 H3 IH3 H4 IH4 Hg Hi k' H'.
    simpl in Hg. destruct Hg as (_ & G1 & G2).
    apply rtally_inv in H'. cbn [rtally_match] in H'.
    destruct H' as [(o' & a' & O' & S' & H' & ->)|[(l1 & X' & o' & a' & b' & O' & O2' & S' & H' & H2' & ->)|
      [(lft' & l1 & X1 & l2 & Y' & o' & a' & b' & c' & d' & K & O' & O2' & O3' & N' & H' & H2' & H3' & H4' & ->)|(lft' & l1 & X1 & l2 & Y' & o' & a' & b' & c' & K & O' & O2' & O3' & N' & _)]]].
    + rewrite <- (rdet _ _ _ _ _ _ _ _ G1 Hi O O') in S'. discriminate.
    + rewrite <- (rdet _ _ _ _ _ _ _ _ G2 Hi O2 O2') in S'. destruct S'; discriminate.
    + injection K as <-. rewrite (IH G1 Hi _ H'), (IH2 G2 Hi _ H2'), (IH3 G1 Hi _ H3'), (IH4 G2 Hi _ H4'). reflexivity.
    + injection K as <-. rewrite (rdet _ _ _ _ _ _ _ _ G1 Hi O3 O3') in N. contradiction.
  - (* alt again, exception *) intros A p q m i ins lft l X l' Y o a b c O O2 O3 N H IH H2 IH2 H3 IH3 Hg Hi k' H'.
    simpl in Hg. destruct Hg as (_ & G1 & G2).
    apply rtally_inv in H'. cbn [rtally_match] in H'.
    destruct H' as [(o' & a' & O' & S' & H' & ->)|[(l1 & X' & o' & a' & b' & O' & O2' & S' & H' & H2' & ->)|
      [(lft' & l1 & X1 & l2 & Y' & o' & a' & b' & c' & d' & K & O' & O2' & O3' & N' & _)|(lft' & l1 & X1 & l2 & Y' & o' & a' & b' & c' & K & O' & O2' & O3' & N' & H' & H2' & H3' & ->)]]].
    + rewrite <- (rdet _ _ _ _ _ _ _ _ G1 Hi O O') in S'. discriminate.
    + rewrite <- (rdet _ _ _ _ _ _ _ _ G2 Hi O2 O2') in S'. destruct S'; discriminate.
    + injection K as <-. rewrite (rdet _ _ _ _ _ _ _ _ G1 Hi O3 O3') in N. contradiction.
    + injection K as <-. rewrite (IH G1 Hi _ H'), (IH2 G2 Hi _ H2'), (IH3 G1 Hi _ H3'). reflexivity.
  - (* bind *) intros A B p f m i ins rem o k O Hs H IH Hg Hi k' H'. simpl in Hg. destruct Hg as (_ & G1 & G2).
    apply rtally_inv in H'. cbn [rtally_match] in H'.
    destruct H' as [(o' & a' & O' & S' & H' & ->)|[(v & j & X & a' & b' & O' & _)|(n & b & l & X & rs & a' & c' & O' & _)]].
    + f_equal. apply IH; auto.
    + pose proof (rdet _ _ _ _ _ _ _ _ G1 Hi O O'). absurd_ends Hs.
    + pose proof (rdet _ _ _ _ _ _ _ _ G1 Hi O O'). absurd_ends Hs.
  - intros A B p f m i ins rem v j X a b O H IH H2 IH2 Hg Hi k' H'. simpl in Hg. destruct Hg as (_ & G1 & G2).
    apply rtally_inv in H'. cbn [rtally_match] in H'.
    destruct H' as [(o' & a' & O' & S' & H' & ->)|[(v' & j' & X' & a' & b' & O' & H' & H2' & ->)|(n & b' & l & X' & rs & a' & c' & O' & _)]].
    + pose proof (rdet _ _ _ _ _ _ _ _ G1 Hi O O'). absurd_ends S'.
    + pose proof (rdet _ _ _ _ _ _ _ _ G1 Hi O O') as K. injection K as <- <- <-.
      rewrite (IH G1 Hi _ H'), (IH2 (G2 _) (rends _ _ _ _ _ _ _ _ _ G1 Hi O) _ H2'). reflexivity.
    + discriminate (rdet _ _ _ _ _ _ _ _ G1 Hi O O').
  - intros A B p f m i ins rem n b l X rs a c O H IH H2 IH2 Hg Hi k' H'. simpl in Hg. destruct Hg as (_ & G1 & G2).
    apply rtally_inv in H'. cbn [rtally_match] in H'.
    destruct H' as [(o' & a' & O' & S' & H' & ->)|[(v' & j' & X' & a' & b' & O' & _)|(n' & b' & l' & X' & rs' & a' & c' & O' & H' & H2' & ->)]].
    + pose proof (rdet _ _ _ _ _ _ _ _ G1 Hi O O'). absurd_ends S'.
    + discriminate (rdet _ _ _ _ _ _ _ _ G1 Hi O O').
    + pose proof (rdet _ _ _ _ _ _ _ _ G1 Hi O O') as K. injection K as <- <- <- <- <-.
      rewrite (IH G1 Hi _ H'), (IH2 G2 (rinside _ _ _ _ _ _ _ _ _ _ _ G1 Hi O) _ H2'). reflexivity.
  - (* seq *) intros A B C p q merge m i ins rem o k O Hs H IH Hg Hi k' H'. simpl in Hg. destruct Hg as (_ & G1 & G2).
    apply rtally_inv in H'. cbn [rtally_match] in H'.
    destruct H' as [(o' & a' & O' & S' & H' & ->)|[(v & j & X & a' & b' & O' & _)|(n & b & l & X & rs & a' & c' & O' & _)]].
    + f_equal. apply IH; auto.
    + pose proof (rdet _ _ _ _ _ _ _ _ G1 Hi O O'). absurd_ends Hs.
    + pose proof (rdet _ _ _ _ _ _ _ _ G1 Hi O O'). absurd_ends Hs.
  - intros A B C p q merge m i ins rem v j X a b O H IH H2 IH2 Hg Hi k' H'. simpl in Hg. destruct Hg as (_ & G1 & G2).
    apply rtally_inv in H'. cbn [rtally_match] in H'.
    destruct H' as [(o' & a' & O' & S' & H' & ->)|[(v' & j' & X' & a' & b' & O' & H' & H2' & ->)|(n & b' & l & X' & rs & a' & c' & O' & _)]].
    + pose proof (rdet _ _ _ _ _ _ _ _ G1 Hi O O'). absurd_ends S'.
    + pose proof (rdet _ _ _ _ _ _ _ _ G1 Hi O O') as K. injection K as <- <- <-.
      rewrite (IH G1 Hi _ H'), (IH2 G2 (rends _ _ _ _ _ _ _ _ _ G1 Hi O) _ H2'). reflexivity.
    + discriminate (rdet _ _ _ _ _ _ _ _ G1 Hi O O').
  - intros A B C p q merge m i ins rem n b l X rs a c O H IH H2 IH2 Hg Hi k' H'. simpl in Hg. destruct Hg as (_ & G1 & G2).
    apply rtally_inv in H'. cbn [rtally_match] in H'.
    destruct H' as [(o' & a' & O' & S' & H' & ->)|[(v' & j' & X' & a' & b' & O' & _)|(n' & b' & l' & X' & rs' & a' & c' & O' & H' & H2' & ->)]].
    + pose proof (rdet _ _ _ _ _ _ _ _ G1 Hi O O'). absurd_ends S'.
    + discriminate (rdet _ _ _ _ _ _ _ _ G1 Hi O O').
    + pose proof (rdet _ _ _ _ _ _ _ _ G1 Hi O O') as K. injection K as <- <- <- <- <-.
      rewrite (IH G1 Hi _ H'), (IH2 (fun _ => G2) (rinside _ _ _ _ _ _ _ _ _ _ _ G1 Hi O) _ H2'). reflexivity.
  - (* maybe *) intros A p m i ins rem k H IH Hg Hi k' H'. apply rtally_inv in H'. destruct H' as (a & H' & ->).
    f_equal. apply IH; auto. apply Hg.
  - (* many *) intros A p m i ins rem o k O Hs H IH Hg Hi k' H'. pose proof Hg as Hg0. simpl in Hg0. destruct Hg0 as (_ & G1).
    apply rtally_inv in H'. cbn [rtally_match] in H'.
    destruct H' as [(o' & a' & O' & S' & H' & ->)|[(v & j & X & a' & b' & O' & L & _)|(n & b & l & X & rs & a' & c' & O' & _)]].
    + f_equal. apply IH; auto.
    + pose proof (rdet _ _ _ _ _ _ _ _ G1 Hi O O') as K. destruct Hs as [Hs|(v' & X' & Hs)]; [absurd_ends Hs|].
      rewrite Hs in K. injection K as _ K _. lia.
    + pose proof (rdet _ _ _ _ _ _ _ _ G1 Hi O O') as K. destruct Hs as [Hs|(v' & X' & Hs)]; [absurd_ends Hs|congruence].
  - intros A p m i ins rem v j X a b O L H IH H2 IH2 Hg Hi k' H'. pose proof Hg as Hg0. simpl in Hg0. destruct Hg0 as (_ & G1).
    apply rtally_inv in H'. cbn [rtally_match] in H'.
    destruct H' as [(o' & a' & O' & S' & H' & ->)|[(v' & j' & X' & a' & b' & O' & L' & H' & H2' & ->)|(n & b' & l & X' & rs & a' & c' & O' & _)]].
    + pose proof (rdet _ _ _ _ _ _ _ _ G1 Hi O O') as K. destruct S' as [S'|(v' & X' & S')]; [absurd_ends S'|].
      rewrite S' in K. injection K as _ K _. lia.
    + pose proof (rdet _ _ _ _ _ _ _ _ G1 Hi O O') as K. injection K as <- <- <-.
      rewrite (IH G1 Hi _ H'). specialize (IH2 Hg (rends _ _ _ _ _ _ _ _ _ G1 Hi O) _ H2'). injection IH2 as ->. reflexivity.
    + discriminate (rdet _ _ _ _ _ _ _ _ G1 Hi O O').
  - intros A p m i ins rem n b l X rs a c O H IH H2 IH2 Hg Hi k' H'. pose proof Hg as Hg0. simpl in Hg0. destruct Hg0 as (_ & G1).
    apply rtally_inv in H'. cbn [rtally_match] in H'.
    destruct H' as [(o' & a' & O' & S' & H' & ->)|[(v' & j' & X' & a' & b' & O' & _)|(n' & b' & l' & X' & rs' & a' & c' & O' & H' & H2' & ->)]].
    + pose proof (rdet _ _ _ _ _ _ _ _ G1 Hi O O') as K. destruct S' as [S'|(v' & X' & S')]; [absurd_ends S'|congruence].
    + discriminate (rdet _ _ _ _ _ _ _ _ G1 Hi O O').
    + pose proof (rdet _ _ _ _ _ _ _ _ G1 Hi O O') as K. injection K as <- <- <- <- <-.
      rewrite (IH G1 Hi _ H'), (IH2 (fun _ => Hg) (rinside _ _ _ _ _ _ _ _ _ _ _ G1 Hi O) _ H2'). reflexivity.
  - (* attempt *) intros A p m i ins lft k H IH Hg Hi k' H'. apply rtally_inv in H'. destruct H' as (a & H' & ->).
    f_equal. apply IH; auto. apply Hg.
  - intros A p m i ins k H Hg Hi k' H'. apply rtally_inv in H'. destruct H' as (a & H' & ->).
    f_equal. apply (TU _ _ _ _ _ _ (proj2 Hg) Hi H H').
  - intros A p x m i ins rem k H IH Hg Hi k' H'. apply rtally_inv in H'. destruct H' as (a & H' & ->).
    f_equal. apply IH; auto. apply Hg.
  - intros A p m i ins rem k H IH Hg Hi k' H'. apply rtally_inv in H'. destruct H' as (a & H' & ->).
    f_equal. apply IH; auto. apply Hg.
  - intros A p x l m i ins rem k H IH Hg Hi k' H'. apply rtally_inv in H'. destruct H' as (a & H' & ->).
    f_equal. apply IH; auto. apply Hg.
  - intros A p fn lab m i ins rem k H IH Hg Hi k' H'. apply rtally_inv in H'. destruct H' as (a & H' & ->).
    f_equal. apply IH; auto. apply Hg.
  - intros A p m i ins rem k H IH Hg Hi k' H'. apply rtally_inv in H'. destruct H' as (a & H' & ->).
    f_equal. apply IH; auto. apply Hg.
  - intros A p m i ins rem k K H IH Hg Hi k' H'. apply rtally_inv in H'.
    destruct H' as [(_ & a & H' & ->)|[N _]]; [|contradiction]. f_equal. apply IH; auto. apply Hg.
  - intros A p m i ins rem K Hg Hi k' H'. apply rtally_inv in H'. destruct H' as [(N & _)|[_ ->]]; [contradiction|reflexivity].
  - intros A delta p m i ins rem k K H IH Hg Hi k' H'. apply rtally_inv in H'.
    destruct H' as [(_ & a & H' & ->)|[N _]]; [|contradiction]. f_equal. apply IH; auto. apply Hg.
  - intros A delta p m i ins rem K Hg Hi k' H'. apply rtally_inv in H'. destruct H' as [(N & _)|[_ ->]]; [contradiction|reflexivity].
  - intros d m i ins rem k H IH Hg Hi k' H'. apply rtally_inv in H'. destruct H' as (a & H' & ->).
    f_equal. apply IH; auto.
  - (* the repairs *) intros A B f m ins G I k' H'. apply rtallies_inv in H'. exact H'.
  - intros A B f m ins r rs o a c O N H IH H2 IH2 G I k' H'. apply rtallies_inv in H'. cbn in H'.
    inversion I as [|? ? I1 I2]; subst.
    destruct H' as [(o' & a' & c' & O' & N' & H' & H2' & ->)|(o' & O' & N' & H')].
    + rewrite (IH (G _) I1 _ H'), (IH2 G I2 _ H2'). reflexivity.
    + rewrite (rdet _ _ _ _ _ _ _ _ (G _) I1 O O') in N. contradiction.
  - intros A B f m ins r rs o a O N H IH G I k' H'. apply rtallies_inv in H'. cbn in H'.
    inversion I as [|? ? I1 I2]; subst.
    destruct H' as [(o' & a' & c' & O' & N' & H' & H2' & ->)|(o' & O' & N' & H')].
    + rewrite (rdet _ _ _ _ _ _ _ _ (G _) I1 O O') in N. contradiction.
    + apply (IH (G _) I1 _ H').
Qed.
End Unique.

(** ** C58: the calls that a parse with recovery makes are exactly those of the rules *)
Theorem C58_exact :
  forall T V (E : env T V) A (g : gram T V A) s mi get fmt locof n,
  wf_env E -> wf g -> cohere get s locof -> lay_ok E g s locof ->
  snd (parse_counted_rec E n g s mi get fmt) <> NoFuel ->
  forall k, rtally Nat.add E s locof A g 0 0 mi (Some mi) k <-> fst (parse_counted_rec E n g s mi get fmt) = k.
Proof.
  intros T V E A g s mi get fmt locof n HE Hg Hco Hl H k.
  destruct (lay_gok _ _ _ _ _ HE Hg Hl) as [G1 G2].
  unfold parse_counted_rec in *. cbn [fst snd] in *.
  assert (Q : rtally Nat.add E s locof A g 0 0 mi (Some mi) (fst (cfull E n g s 0 (init_ctx get) mi (Some mi)))).
  { apply (cost_rtally E s get locof _ Hco (fun x => x) G2 n A g 0 (init_ctx get) mi (Some mi) G1 ltac:(lia) (pos_init _ _)).
    intros K. apply H. rewrite K. reflexivity. }
  split; [|intros <-; exact Q]. intros H'. symmetry.
  eapply rtally_unique; [exact Hco|intros x; exact x|exact G2|exact Q|exact G1|lia|exact H'].
Qed.
Print Assumptions C58_exact.

(** ** C60: and they nest as deeply as the rules say *)
Theorem C60_exact_recovery :
  forall T V (E : env T V) A (g : gram T V A) s mi get fmt locof n,
  wf_env E -> wf g -> cohere get s locof -> lay_ok E g s locof ->
  snd (parse_nested_rec E n g s mi get fmt) <> NoFuel ->
  forall k, rtally Nat.max E s locof A g 0 0 mi (Some mi) k <-> fst (parse_nested_rec E n g s mi get fmt) = k.
Proof.
  intros T V E A g s mi get fmt locof n HE Hg Hco Hl H k.
  destruct (lay_gok _ _ _ _ _ HE Hg Hl) as [G1 G2].
  unfold parse_nested_rec in *. cbn [fst snd] in *.
  assert (Q : rtally Nat.max E s locof A g 0 0 mi (Some mi) (fst (dfull E n g s 0 (init_ctx get) mi (Some mi)))).
  { apply (depth_rtally E s get locof _ Hco (fun x => x) G2 n A g 0 (init_ctx get) mi (Some mi) G1 ltac:(lia) (pos_init _ _)).
    intros K. apply H. rewrite K. reflexivity. }
  split; [|intros <-; exact Q]. intros H'. symmetry.
  eapply rtally_unique; [exact Hco|intros x; exact x|exact G2|exact Q|exact G1|lia|exact H'].
Qed.
Print Assumptions C60_exact_recovery.

(** the expression grammar on [1+(2], which lacks a parenthesis: 40 calls, 18 deep at
    most; without recovery there are 32 *)
Theorem C58_case_exact : let s := ex_str "1+(2" in
  (forall k, rtally Nat.add ex_E s (true_loc s) _ ex_top 0 0 5 (Some 5%Z) k <-> k = 40) /\
  (forall k, rtally Nat.max ex_E s (true_loc s) _ ex_top 0 0 5 (Some 5%Z) k <-> k = 18) /\
  (forall k, tally Nat.add ex_E s (true_loc s) _ ex_top 0 0 k <-> k = 32).
Proof.
  intros s.
  assert (L : lay_ok ex_E ex_top s (true_loc s)) by (left; apply scannerless_exact).
  split; [|split]; intros k.
  - pose proof (C58_exact _ _ ex_E _ ex_top s 5 scannerless_get_loc linecol_fmt (true_loc s) 150 ex_wf_E ex_wf
      (scannerless_cohere s) L ltac:(vm_compute; discriminate) k) as K.
    rewrite K. replace (fst (parse_counted_rec ex_E 150 ex_top s 5 scannerless_get_loc linecol_fmt)) with 40 by (vm_compute; reflexivity).
    split; congruence.
  - pose proof (C60_exact_recovery _ _ ex_E _ ex_top s 5 scannerless_get_loc linecol_fmt (true_loc s) 150 ex_wf_E ex_wf
      (scannerless_cohere s) L ltac:(vm_compute; discriminate) k) as K.
    rewrite K. replace (fst (parse_nested_rec ex_E 150 ex_top s 5 scannerless_get_loc linecol_fmt)) with 18 by (vm_compute; reflexivity).
    split; congruence.
  - pose proof (C57_exact _ _ ex_E _ ex_top s scannerless_get_loc linecol_fmt (true_loc s) 150 ex_wf_E ex_wf
      (scannerless_cohere s) L ltac:(vm_compute; discriminate) k) as K.
    rewrite K. replace (fst (parse_counted ex_E 150 ex_top s scannerless_get_loc linecol_fmt)) with 32 by (vm_compute; reflexivity).
    split; congruence.
Qed.
