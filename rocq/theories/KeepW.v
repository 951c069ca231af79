(** C53, C54, C55: weights of syntax trees.  Only arguments, literals and names have one. *)
From Verif Require Export SafeGo.
Local Open Scope string_scope.
Local Open Scope list_scope.

(** What is counted: arguments, literals of some class, or names. *)
Inductive lclass := LkInt | LkFloat | LkStr.
Inductive kind := KArgs | KLits (c : lclass) | KNames.
Definition literal_leaf (l : leaf) : bool := match l with LInt _ | LFloat _ | LStr _ => true | _ => false end.
Definition name_leaf (l : leaf) : bool := match l with LFunc (FOther _) | LVar (VOther _) => true | _ => false end.
Definition weighty (a : atom) : bool := match a with AArg _ _ | AIdent _ _ => true | ALeaf l _ => literal_leaf l || name_leaf l | _ => false end.
Class wenv := mkWenv { kwt : atom -> nat; kwt_zero : forall a, weighty a = false -> kwt a = 0 }.

Section Weights.
Context {V : wenv}.
Definition Wk (l : list atom) : nat := list_sum (map kwt l).
Definition kW {T} {I : Atoms T} (a : T) : nat := Wk (atoms a).
Lemma Wk_app l l' : Wk (l ++ l') = Wk l + Wk l'.
Proof. unfold Wk. now rewrite map_app, list_sum_app. Qed.
Lemma Wk_light l : forallb (fun a => negb (weighty a)) l = true -> Wk l = 0.
Proof.
  induction l as [|a l IH]; [reflexivity|]. cbn [forallb]. intros H. apply andb_true_iff in H as [H1 H2]. change (Wk (a :: l)) with (kwt a + Wk l).
  rewrite (IH H2), kwt_zero; [reflexivity|]. now apply negb_true_iff.
Qed.
Lemma kW_pair A B (IA : Atoms A) (IB : Atoms B) (a : A) (b : B) : kW (a, b) = kW a + kW b.
Proof. apply Wk_app. Qed.
Lemma kW_some A (IA : Atoms A) (a : A) : kW (Some a) = kW a. Proof. reflexivity. Qed.
Lemma kW_inl A B (IA : Atoms A) (IB : Atoms B) (a : A) : kW (@inl A B a) = kW a. Proof. reflexivity. Qed.
Lemma kW_inr A B (IA : Atoms A) (IB : Atoms B) (b : B) : kW (@inr A B b) = kW b. Proof. reflexivity. Qed.
Lemma kW_nil A (IA : Atoms A) : kW (@nil A) = 0. Proof. reflexivity. Qed.
Lemma kW_cons A (IA : Atoms A) (a : A) l : kW (a :: l) = kW a + kW l.
Proof. apply Wk_app. Qed.
Lemma kW_app A (IA : Atoms A) (l l' : list A) : kW (l ++ l') = kW l + kW l'.
Proof. unfold kW. rewrite atoms_app. apply Wk_app. Qed.
Lemma kW_span (s : span) : kW s = 0. Proof. now apply Wk_light. Qed.
Lemma kW_ospan (s : option span) : kW s = 0. Proof. destruct s; [apply kW_span|reflexivity]. Qed.
Lemma kW_ident v s : kW (mkIdent v s) = kwt (AIdent v s).
Proof. change (kwt (AIdent v s) + 0 = kwt (AIdent v s)). lia. Qed.
Lemma kW_tagged (s : tagged) : kW s = 0. Proof. now apply Wk_light. Qed.
Lemma kW_unit_span (p : time_unit * span) : kW p = 0. Proof. now apply Wk_light. Qed.
Lemma kW_as f t : (forall k, literal_leaf (f k) || name_leaf (f k) = false) -> @kW _ (Atoms_as f) t = 0.
Proof. intros H. apply Wk_light. cbn. now rewrite H. Qed.
Lemma kW_typed (s : span) (t : type_) : kW (s, t) = kW t.
Proof.
  unfold kW. change (atoms (s, t)) with (type_leaf t s ++ (atoms s ++ atoms t)). rewrite !Wk_app. rewrite (Wk_light (type_leaf t s)) by (now destruct t).
  rewrite (Wk_light (atoms s)) by reflexivity. reflexivity.
Qed.
Lemma kW_int n s : kW (n, s : span) = kwt (ALeaf (LInt n) s).
Proof. unfold kW. change (atoms (n, s)) with [ASpan s; ALeaf (LInt n) s]. change (kwt (ASpan s) + (kwt (ALeaf (LInt n) s) + 0) = kwt (ALeaf (LInt n) s)). rewrite kwt_zero; [lia|reflexivity]. Qed.
Lemma kW_string v s : kW (mkSString v s) = kwt (ALeaf (LStr v) s).
Proof. unfold kW. change (atoms (mkSString v s)) with [ASpan s; ALeaf (LStr v) s]. change (kwt (ASpan s) + (kwt (ALeaf (LStr v) s) + 0) = kwt (ALeaf (LStr v) s)). rewrite kwt_zero; [lia|reflexivity]. Qed.
End Weights.

(** Normalise the weights in the hypotheses. *)
Ltac knm :=
  repeat match goal with
  | H : context [@kW _ _ Atoms_unit_span _] |- _ => rewrite kW_unit_span in H
  | H : context [@kW _ _ (Atoms_as _) _] |- _ => rewrite kW_as in H by reflexivity
  | H : context [@kW _ _ Atoms_typed _] |- _ => rewrite kW_typed in H
  | H : context [@kW _ _ (Atoms_prod _ _) (_, _)] |- _ => rewrite kW_pair in H
  | H : context [kW (Some _)] |- _ => rewrite kW_some in H
  | H : context [@kW _ (list _) _ (_ :: _)] |- _ => rewrite kW_cons in H
  | H : context [@kW _ (list _) _ (_ ++ _)] |- _ => rewrite kW_app in H
  | H : context [@kW _ (option ?T) ?I None] |- _ => change (@kW _ (option T) I None) with 0 in H
  | H : context [@kW _ (list ?T) ?I nil] |- _ => change (@kW _ (list T) I nil) with 0 in H
  | H : context [@kW _ span _ _] |- _ => rewrite kW_span in H
  | H : context [@kW _ (option span) _ _] |- _ => rewrite kW_ospan in H
  | H : context [@kW _ (nat * nat)%type _ _] |- _ => rewrite kW_span in H
  | H : context [@kW _ tagged _ _] |- _ => rewrite kW_tagged in H
  | H : context [@kW _ unit ?I ?x] |- _ => change (@kW _ unit I x) with 0 in H
  | H : context [@kW _ N ?I ?x] |- _ => change (@kW _ N I x) with 0 in H
  | H : context [@kW _ string ?I ?x] |- _ => change (@kW _ string I x) with 0 in H
  | H : context [@kW _ time_unit ?I ?x] |- _ => change (@kW _ time_unit I x) with 0 in H
  | H : context [@kW _ bool ?I ?x] |- _ => change (@kW _ bool I x) with 0 in H
  | H : context [@kW _ text ?I ?x] |- _ => change (@kW _ text I x) with 0 in H
  | H : context [@kW _ (list N) ?I ?x] |- _ => change (@kW _ (list N) I x) with 0 in H
  end.

(** Expand the weights in the goal. *)
Ltac kwx :=
  repeat match goal with
  | |- context [@kW _ _ Atoms_unit_span _] => rewrite kW_unit_span
  | |- context [@kW _ _ (Atoms_as _) _] => rewrite kW_as by reflexivity
  | |- context [@kW _ _ Atoms_typed _] => rewrite kW_typed
  | |- context [@kW _ _ (Atoms_prod _ _) (_, _)] => rewrite kW_pair
  | |- context [kW (Some _)] => rewrite kW_some
  | |- context [@kW _ (option ?T) ?I None] => change (@kW _ (option T) I None) with 0
  | |- context [@kW _ (list ?T) ?I nil] => change (@kW _ (list T) I nil) with 0
  | |- context [@kW _ (list ?T) ?I (_ ++ _)] => rewrite kW_app
  | |- context [@kW _ (list ?T) ?I (_ :: _)] => rewrite kW_cons
  | |- context [kW (inl _)] => rewrite kW_inl
  | |- context [kW (inr _)] => rewrite kW_inr
  | |- context [@kW _ span _ _] => rewrite kW_span
  | |- context [@kW _ (option span) _ _] => rewrite kW_ospan
  | |- context [@kW _ (nat * nat)%type _ _] => rewrite kW_span
  | |- context [@kW _ tagged _ _] => rewrite kW_tagged
  | |- context [@kW _ unit ?I ?x] => change (@kW _ unit I x) with 0
  | |- context [@kW _ N ?I ?x] => change (@kW _ N I x) with 0
  | |- context [@kW _ bool ?I ?x] => change (@kW _ bool I x) with 0
  | |- context [@kW _ string ?I ?x] => change (@kW _ string I x) with 0
  | |- context [@kW _ time_unit ?I ?x] => change (@kW _ time_unit I x) with 0
  | |- context [@kW _ text ?I ?x] => change (@kW _ text I x) with 0
  | |- context [@kW _ (list N) ?I ?x] => change (@kW _ (list N) I x) with 0
  | |- context [@kW _ tok ?I ?x] => change (@kW _ tok I x) with 0
  | |- context [@kW _ ctl ?I ?x] => change (@kW _ ctl I x) with 0
  | |- context [@kW _ func ?I ?x] => change (@kW _ func I x) with 0
  | |- context [@kW _ binop ?I ?x] => change (@kW _ binop I x) with 0
  | |- context [@kW _ unop ?I ?x] => change (@kW _ unop I x) with 0
  | |- context [@kW _ is_ ?I ?x] => change (@kW _ is_ I x) with 0
  | |- context [@kW _ variable ?I ?x] => change (@kW _ variable I x) with 0
  | |- context [@kW ?V ?T ?I ?v] =>
      lazymatch T with
      | invalid => fail
      | sstring => fail
      | ident => fail
      | (N * span)%type => fail
      | (N * (nat * nat))%type => fail
      | expr => ctor_head v; change (@kW V T I v) with (@Wk V (@atoms T I v)); autorewrite with at_ex; krefold
      | stmt => ctor_head v; change (@kW V T I v) with (@Wk V (@atoms T I v)); autorewrite with at_ex; krefold
      | tref _ _ => ctor_head v; change (@kW V T I v) with (@Wk V (@atoms T I v)); autorewrite with at_ex; krefold
      | _ => ctor_head v;
        let t1 := eval red in (@atoms T I v) in
        let t2 := eval red in t1 in
        change (@kW V T I v) with (@Wk V t2); krefold
      end
  end
with krefold :=
  rewrite ?Wk_app; change (Wk []) with 0;
  repeat match goal with |- context [Wk (@atoms ?T ?I ?x)] => change (Wk (@atoms T I x)) with (kW x) end.

Ltac kwl :=
  lazymatch goal with
  | |- context [@kW _ ?T ?I (match ?x with _ => _ end)] => destruct x; knm; kwx; kwl
  | _ => try lia
  end.
