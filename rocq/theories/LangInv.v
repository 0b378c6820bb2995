(** Inversion principles for the language of a grammar and for [lcall], used to
    show that concrete grammars meet the hypotheses of the theorems. *)
From Verif Require Export TermSpec.

Section LangInv.
Context {T : Type} {V : nat -> Type}.
Variable E : env T V.
Notation gram := (gram T V).
Notation word := (@word T).

Definition lang_match {A} (g : gram A) : word -> A -> Prop :=
  match g in Grammar.gram _ _ A return word -> A -> Prop with
  | GPure x => fun w v => w = [] /\ v = x
  | GPureFn f => fun w v => w = [] /\ f tt = Ret v
  | GUnexpected _ => fun _ _ => False
  | GEof => fun w _ => w = []
  | GSatisfy test => fun w v => w = [inl v] /\ test v = Ret true
  | GSym teq x _ => fun w v => w = [inl v] /\ teq v x = true
  | GLiteral teq x _ => fun w v => v = x /\ exists y, w = map inl y /\ Forall2 (fun a b => teq a b = true) y x
  | GRegexp m => fun w v => exists s i e, m s i = Some (e, Some v) /\ w = map inl (firstn (e - i) (skipn i s))
  | GFmap p f => fun w v => exists v0, lang E _ p w v0 /\ f v0 = Ret v
  | GAlt p q => fun w v => lang E _ p w v \/ lang E _ q w v
  | GBind p f => fun w v => exists w1 w2 v0, w = w1 ++ w2 /\ lang E _ p w1 v0 /\ lang E _ (f v0) w2 v
  | GSeq p q merge => fun w v => exists w1 w2 v1 v2,
      w = w1 ++ w2 /\ v = merge v1 v2 /\ lang E _ p w1 v1 /\ lang E _ q w2 v2
  | GMaybe p => fun w v => (w = [] /\ v = None) \/ exists v0, v = Some v0 /\ lang E _ p w v0
  | GMany p => fun w v => (w = [] /\ v = []) \/
      exists w1 w2 v1 l, w = w1 ++ w2 /\ v = v1 :: l /\ lang E _ p w1 v1 /\ lang E _ (GMany p) w2 l
  | GAttempt p => fun w v => lang E _ p w v
  | GLabel p _ => fun w v => lang E _ p w v
  | GRecover p => fun w v => lang E _ p w v
  | GRecoverWith p x l => fun w v => lang E _ p w v \/ (w = [inr l] /\ v = x)
  | GRecoverWithFn p fn lab => fun w v => lang E _ p w v \/
      exists s i, fn s i = Ret v /\ w = [inr (lab v)]
  | GBlock p => fun w v => lang E _ p w v
  | GAligned p => fun w v => lang E _ p w v
  | GIndented _ p => fun w v => lang E _ p w v
  | GDelay d => fun w v => lang E _ (E d) w v
  | GUndef => fun _ _ => False
  end.
Lemma lang_inv A (g : gram A) w v : lang E A g w v -> lang_match g w v.
Proof. intros H. destruct H; simpl; eauto 10. all: right; eauto 10. Qed.

Lemma app_nil_inv {X} (a b : list X) : [] = a ++ b -> a = [] /\ b = [].
Proof. destruct a, b; simpl; intros H; try discriminate; auto. Qed.

Lemma many_values A (p : gram A) (P : A -> Prop) :
  (forall w v, lang E A p w v -> P v) ->
  forall w l, lang E _ (GMany p) w l -> Forall P l.
Proof.
  intros H w l. revert w. induction l as [|v l IH]; intros w Hl; auto.
  apply lang_inv in Hl. destruct Hl as [[_ Hl]|(w1 & w2 & v1 & l' & _ & Hl & H1 & H2)]; [discriminate|].
  injection Hl as -> ->. constructor; eauto.
Qed.

Definition lcall_match {A} (g : gram A) (d : nat) : Prop :=
  match g with
  | GFmap p _ => lcall E _ p d
  | GAlt p q => lcall E _ p d \/ lcall E _ q d
  | GBind p f => lcall E _ p d \/ exists v, lang E _ p [] v /\ lcall E _ (f v) d
  | GSeq p q _ => lcall E _ p d \/ (exists v, lang E _ p [] v) /\ lcall E _ q d
  | GMaybe p => lcall E _ p d
  | GMany p => lcall E _ p d
  | GAttempt p => lcall E _ p d
  | GLabel p _ => lcall E _ p d
  | GRecover p => lcall E _ p d
  | GRecoverWith p _ _ => lcall E _ p d
  | GRecoverWithFn p _ _ => lcall E _ p d
  | GBlock p => lcall E _ p d
  | GAligned p => lcall E _ p d
  | GIndented _ p => lcall E _ p d
  | GDelay d' => d' = d
  | _ => False
  end.
Lemma lcall_inv A (g : gram A) d : lcall E A g d -> lcall_match g d.
Proof. intros H. destruct H; simpl; eauto. Qed.

(** local conditions give global ones *)
Lemma everywhere_gall (P : forall B, gram B -> Prop) :
  (forall d, gall P (E d)) -> forall A (g : gram A), gall P g -> everywhere E P g.
Proof.
  intros HE A g Hg B q Ho. assert (K : gall P q).
  { induction Ho; auto; try (apply IHHo; apply Hg). }
  destruct q; apply K.
Qed.
End LangInv.
