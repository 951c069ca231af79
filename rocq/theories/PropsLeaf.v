(** C45, C32: the flags, modes and kinds in a syntax tree are those that were written. *)
From Verif Require Export PropsLint.
Local Open Scope string_scope.
Local Open Scope list_scope.

(** ** Specification *)
(** At [s] the words [ks] are written, in any case, with white space and comments between them. *)
Definition words_at (src : text) (s : span) (ks : list string) : Prop := exists w, at_span src s w /\ phrase ks w.
(** Leaf [l] is written at [s] (the table of [LeafSpec]). *)
Definition leaf_written (src : text) (l : leaf) (s : span) : Prop := exists w, at_span src s w /\ leaf_text l w.

Section Both.
Context {A : Type} {I : Atoms A}.
Variables (sr : text) (o : options) (a : A) (out : list issue) (log : list (N * span)).
Hypothesis H : @safe (env0 sr o) A I a out log.
Lemma both_leaves l s : In (l, s) (leaves_in a) -> leaf_written sr l s.
Proof.
  intros Hx. unfold leaves_in in Hx. apply in_flat_map in Hx as (x & X1 & X2).
  pose proof (in_atoms _ _ _ _ _ _ H x X1) as O. destruct x; cbn in X2; try easy. destruct X2 as [X2|[]]. injection X2 as -> ->. destruct O as (w & [O1 _] & O2). exists w. auto.
Qed.
End Both.

(** ** C45 *)
Theorem C45_statement_leaves : forall src issues o r out l s,
  parse_statement_api src issues o = Returns r out -> In (l, s) (leaves_in r) -> leaf_written src l s.
Proof.
  intros src issues o r out l s H Hi. destruct (statement_facts _ _ _ _ _ H (env0 src o) eq_refl eq_refl I) as [F _]. exact (both_leaves _ _ _ _ _ F l s Hi).
Qed.
Theorem C45_statements_leaves : forall src issues o r out l s,
  parse_statements src issues o = Returns r out -> In (l, s) (leaves_in r) -> leaf_written src l s.
Proof.
  intros src issues o r out l s H Hi. destruct (statements_facts _ _ _ _ _ H (env0 src o) eq_refl eq_refl I) as [F _]. exact (both_leaves _ _ _ _ _ F l s Hi).
Qed.

(** ** Constructors: spelled as [other_tags] says, or listed in [wrong_tags] *)
Lemma listed_in t c ks : listed t c ks = true -> In (c, ks) t.
Proof.
  unfold listed. intros H. apply existsb_exists in H as ((c', ks') & Hi & H). cbn [fst snd] in H. apply andb_true_iff in H as [H1 H2].
  apply String.eqb_eq in H1. unfold eqw in H2. destruct (list_eq_dec string_dec ks' ks); [|discriminate]. now subst.
Qed.
Lemma tag_words src c s : leaf_written src (LTag c) s ->
  exists ks, words_at src s ks /\ (spelled other_tags c ks = true \/ In (c, ks) wrong_tags).
Proof.
  intros (w & At & [[]|(ks & H & Ph)]). exists ks. split; [now exists w|]. cbn [leaf_words] in H. apply orb_true_iff in H as [H|H]; [now left|right; now apply listed_in].
Qed.
Theorem C45_statement_tags : forall src issues o r out c s,
  parse_statement_api src issues o = Returns r out -> In (LTag c, s) (leaves_in r) ->
  exists ks, words_at src s ks /\ (spelled other_tags c ks = true \/ In (c, ks) wrong_tags).
Proof. intros src issues o r out c s H Hi. apply tag_words. eapply C45_statement_leaves; eauto. Qed.
Theorem C45_statements_tags : forall src issues o r out c s,
  parse_statements src issues o = Returns r out -> In (LTag c, s) (leaves_in r) ->
  exists ks, words_at src s ks /\ (spelled other_tags c ks = true \/ In (c, ks) wrong_tags).
Proof. intros src issues o r out c s H Hi. apply tag_words. eapply C45_statements_leaves; eauto. Qed.
(** ** Values *)
(** Integers: the digits at the span have this value (a number that is missing or too large is
    replaced by 0). *)
Definition integer_at (src : text) (n : N) (s : span) : Prop :=
  exists w, at_span src s w /\ Forall digit w /\ (dec_value w = n \/ (n = 0%N /\ (2 ^ 32 <= dec_value w)%N)).
(** Strings: one or more literals with this value. *)
Definition string_at (src : text) (v : text) (s : span) : Prop := exists w, at_span src s w /\ string_literals v w.
(** Operators and keywords. *)
Definition one_of_at (src : text) (l : list (list string)) (s : span) : Prop := exists ks, In ks l /\ words_at src s ks.
Lemma eqw_eq a b : eqw a b = true -> a = b.
Proof. unfold eqw. now destruct (list_eq_dec string_dec a b). Qed.
Lemma leaf_kinds src l s : leaf_written src l s ->
  match l with
  | LInt n => integer_at src n s
  | LStr v => string_at src v s
  | LFloat t => at_span src s t /\ float_text t
  | LBin o => one_of_at src (binop_words o) s
  | LUn o => words_at src s (unop_words o)
  | LIn b => words_at src s (if b then ["NOT"; "IN"] else ["IN"])
  | LIs i => words_at src s (is_words i)
  | LBool b => words_at src s [if b then "TRUE" else "FALSE"]
  | LNull => words_at src s ["NULL"]
  | _ => True
  end.
Proof.
  intros (w & At & [Hv|(ks & Hk & Ph)]).
  - destruct l; cbn [leaf_value] in Hv; try easy.
    + exists w. auto.
    + destruct Hv as [-> Hv]. auto.
    + exists w. auto.
  - destruct l; cbn [leaf_words] in Hk; try easy; try (apply eqw_eq in Hk; subst ks; exists w; auto; fail).
    apply existsb_exists in Hk as (x & Hx & Hk). apply eqw_eq in Hk. subst x. exists ks. split; [exact Hx|]. exists w. auto.
Qed.
Theorem C45_statement_values : forall src issues o r out l s,
  parse_statement_api src issues o = Returns r out -> In (l, s) (leaves_in r) ->
  match l with
  | LInt n => integer_at src n s
  | LStr v => string_at src v s
  | LFloat t => at_span src s t /\ float_text t
  | LBin o => one_of_at src (binop_words o) s
  | LUn o => words_at src s (unop_words o)
  | LIn b => words_at src s (if b then ["NOT"; "IN"] else ["IN"])
  | LIs i => words_at src s (is_words i)
  | LBool b => words_at src s [if b then "TRUE" else "FALSE"]
  | LNull => words_at src s ["NULL"]
  | _ => True
  end.
Proof. intros src issues o r out l s H Hi. apply leaf_kinds. eapply C45_statement_leaves; eauto. Qed.
Theorem C45_statements_values : forall src issues o r out l s,
  parse_statements src issues o = Returns r out -> In (l, s) (leaves_in r) ->
  match l with
  | LInt n => integer_at src n s
  | LStr v => string_at src v s
  | LFloat t => at_span src s t /\ float_text t
  | LBin o => one_of_at src (binop_words o) s
  | LUn o => words_at src s (unop_words o)
  | LIn b => words_at src s (if b then ["NOT"; "IN"] else ["IN"])
  | LIs i => words_at src s (is_words i)
  | LBool b => words_at src s [if b then "TRUE" else "FALSE"]
  | LNull => words_at src s ["NULL"]
  | _ => True
  end.
Proof. intros src issues o r out l s H Hi. apply leaf_kinds. eapply C45_statements_leaves; eauto. Qed.
(** Functions, data types and units are spelled as their constructors, but for the tables. *)
Lemma leaf_names src l s : leaf_written src l s ->
  match l with
  | LFunc (FName c) => exists ks, words_at src s ks /\ spelled other_functions c ks = true
  | LFunc (FOther v) | LVar (VOther v) => at_span src s v \/ at_span src s (txt "`" ++ v ++ txt "`")
  | LVar VTimeZone => words_at src s ["TIME_ZONE"]
  | LType c => exists ks, words_at src s ks /\ spelled other_types c ks = true
  | LUnit u => exists ks, words_at src s ks /\ spelled [] u ks = true
  | _ => True
  end.
Proof.
  intros (w & At & [Hv|(ks & Hk & Ph)]).
  - destruct l; cbn [leaf_value] in Hv; try easy.
    + destruct f; [easy|]. destruct Hv as [->| ->]; auto.
    + destruct v; [easy|]. destruct Hv as [->| ->]; auto.
  - destruct l; cbn [leaf_words] in Hk; try easy.
    + destruct f; [|easy]. exists ks. split; [now exists w|exact Hk].
    + exists ks. split; [now exists w|exact Hk].
    + destruct v; [|easy]. apply eqw_eq in Hk. subst ks. now exists w.
    + exists ks. split; [now exists w|exact Hk].
Qed.
Theorem C45_statement_names : forall src issues o r out l s,
  parse_statement_api src issues o = Returns r out -> In (l, s) (leaves_in r) ->
  match l with
  | LFunc (FName c) => exists ks, words_at src s ks /\ spelled other_functions c ks = true
  | LFunc (FOther v) | LVar (VOther v) => at_span src s v \/ at_span src s (txt "`" ++ v ++ txt "`")
  | LVar VTimeZone => words_at src s ["TIME_ZONE"]
  | LType c => exists ks, words_at src s ks /\ spelled other_types c ks = true
  | LUnit u => exists ks, words_at src s ks /\ spelled [] u ks = true
  | _ => True
  end.
Proof. intros src issues o r out l s H Hi. apply leaf_names. eapply C45_statement_leaves; eauto. Qed.
Theorem C45_statements_names : forall src issues o r out l s,
  parse_statements src issues o = Returns r out -> In (l, s) (leaves_in r) ->
  match l with
  | LFunc (FName c) => exists ks, words_at src s ks /\ spelled other_functions c ks = true
  | LFunc (FOther v) | LVar (VOther v) => at_span src s v \/ at_span src s (txt "`" ++ v ++ txt "`")
  | LVar VTimeZone => words_at src s ["TIME_ZONE"]
  | LType c => exists ks, words_at src s ks /\ spelled other_types c ks = true
  | LUnit u => exists ks, words_at src s ks /\ spelled [] u ks = true
  | _ => True
  end.
Proof. intros src issues o r out l s H Hi. apply leaf_names. eapply C45_statements_leaves; eauto. Qed.

(** The leaves of expressions: every node contributes its own and those of its parts. *)
Lemma leaves_binary o s l r : leaves_in (EBinary o s l r) = (LBin o, s) :: leaves_in l ++ leaves_in r.
Proof. unfold leaves_in. rewrite at_EBinary. rewrite !flat_map_app. reflexivity. Qed.
Lemma leaves_unary o s l : leaves_in (EUnary o s l) = (LUn o, s) :: leaves_in l.
Proof. unfold leaves_in. rewrite at_EUnary. rewrite !flat_map_app. reflexivity. Qed.
Lemma leaves_integer n s : leaves_in (EInteger (n, s)) = [(LInt n, s)].
Proof. reflexivity. Qed.
Lemma leaves_string v s : leaves_in (EString (mkSString v s)) = [(LStr v, s)].
Proof. reflexivity. Qed.
Lemma leaves_is e i s : leaves_in (EIs e i s) = (LIs i, s) :: leaves_in e.
Proof. unfold leaves_in. rewrite at_EIs. rewrite !flat_map_app. change (atoms i) with (@nil atom). change (atoms s) with [ASpan s]. cbn [flat_map app]. now rewrite !app_nil_r. Qed.
Lemma leaves_list (l : list expr) : leaves_in l = flat_map leaves_in l.
Proof.
  induction l as [|x l IH]; [reflexivity|]. cbn [flat_map]. rewrite <- IH. unfold leaves_in. change (atoms (x :: l)) with (atoms x ++ atoms l).
  apply flat_map_app.
Qed.
Lemma leaves_in_ e l s b : leaves_in (EIn e l s b) = (LIn b, s) :: leaves_in e ++ flat_map leaves_in l.
Proof.
  rewrite <- leaves_list. unfold leaves_in. rewrite at_EIn, !flat_map_app. change (atoms s) with [ASpan s]. change (atoms b) with (@nil atom).
  cbn [flat_map app]. now rewrite !app_nil_r.
Qed.
Lemma leaves_function f l s : leaves_in (EFunction f l s) = (LFunc f, s) :: flat_map leaves_in l.
Proof.
  rewrite <- leaves_list. unfold leaves_in. rewrite at_EFunction, !flat_map_app. change (atoms s) with [ASpan s]. change (atoms f) with (@nil atom).
  cbn [flat_map app]. now rewrite !app_nil_r.
Qed.

Example C45_applies :
  match parse_statement_api (txt "SELECT sql_no_cache DISTINCT a FROM t left /* x */ outer JOIN u ON 1 FOR UPDATE") [] default_options with
  | Returns r [] => leaves_in r = [(LTag "SqlNoCache", (7, 19)); (LTag "Distinct", (20, 28)); (LTag "JoinType::Left", (38, 61)); (LInt 1, (67, 68)); (LTag "Update", (73, 79))] | _ => False end.
Proof. vm_compute. reflexivity. Qed.
Example C45_values_apply :
  match parse_statement_api (txt "SELECT 12 + -f('a' 'b', 1.5) is not /**/ null, lower(x) not in (true), cast(x as varchar(3)) LIKE 'it''s'") [] default_options with
  | Returns r [] => leaves_in r = [
      (LIs IsNotNull, (29, 45)); (LBin Ast.Add, (10, 11)); (LInt 12, (7, 9)); (LUn UMinus, (12, 13)); (LFunc (FOther (txt "f")), (13, 14));
      (LStr (txt "ab"), (15, 22)); (LFloat (txt "1.5"), (24, 27));
      (LIn true, (56, 62)); (LFunc (FName "Lower"), (47, 52)); (LBool true, (64, 68));
      (LBin Like, (93, 97)); (LType "VarChar", (81, 88)); (LInt 3, (89, 90)); (LStr (txt "it's"), (98, 105))] | _ => False end.
Proof. vm_compute. reflexivity. Qed.

(** ** C32: ALTER TABLE *)
(** What is added by an ALTER TABLE statement. *)
Definition alter_specs (r : option stmt) : list (alter_specification expr) :=
  match r with Some (SAlterTable a) => al_specs a | _ => [] end.
(** The tag [t] is written as the table [tbl] says. *)
Definition tag_in (src : text) (tbl : list (string * list string)) (t : tagged) : Prop :=
  exists ks, In (tag t, ks) tbl /\ words_at src (tag_span t) ks.
Definition alter_classified (src : text) (x : alter_specification expr) : Prop :=
  match x with
  | AddForeignKey _ _ _ _ _ _ _ _ _ ons => forall f, In f ons ->
      tag_in src fk_types (fk_type f) /\ tag_in src (fk_actions ++ wrong_actions) (fk_action f)
  | AddIndex _ t _ _ _ _ _ => tag_in src (LeafSpec.index_types ++ wrong_indexes) t
  | _ => True
  end.
Lemma list_atoms A (I : Atoms A) (J : Atoms (list A)) (l : list A) x y : J = Atoms_list I -> In x l -> In y (atoms x) -> In y (atoms l).
Proof. intros -> Hx Hy. apply in_flat_map. eauto. Qed.
Lemma alter_atoms x a y : In x (al_specs a) -> In y (atoms x) -> In y (atoms (SAlterTable a)).
Proof.
  intros Hx Hy. rewrite at_SAlterTable. destruct a as [a1 a2 a3 a4 a5 a6 l]. cbn [al_specs] in Hx.
  change (In y (((((((atoms a1) ++ atoms a2) ++ atoms a3) ++ atoms a4) ++ atoms a5) ++ atoms a6) ++ atoms l)). apply in_or_app. right.
  eapply list_atoms; eauto.
Qed.
Lemma leaf_of_atom A (I : Atoms A) (a : A) l s : In (ALeaf l s) (atoms a) -> In (l, s) (leaves_in a).
Proof. intros H. unfold leaves_in. apply in_flat_map. exists (ALeaf l s). split; [exact H|now left]. Qed.
Lemma alter_written src r : (forall l s, In (l, s) (leaves_in r) -> leaf_written src l s) -> Forall (alter_classified src) (alter_specs r).
Proof.
  intros H. apply Forall_forall. intros x Hx. destruct r as [st|]; [|easy]. destruct st; try easy. cbn [alter_specs] in Hx.
  assert (G : forall l s, In (ALeaf l s) (atoms x) -> leaf_written src l s).
  { intros l s Hl. apply H. apply (leaf_of_atom _ _ (Some (SAlterTable v))). change (In (ALeaf l s) (atoms (SAlterTable v))). eapply alter_atoms; eauto. }
  clear H. destruct x; try exact I; cbn [alter_classified].
  - destruct (G (LIndex (tag index_type)) (tag_span index_type)) as (w & At & [[]|(ks & Hk & Ph)]).
    + unfold atoms, Atoms_alter_spec. repeat (apply in_or_app; left). now left.
    + exists ks. split; [|now exists w]. cbn [leaf_words] in Hk. apply in_or_app. apply orb_true_iff in Hk as [Hk|Hk]; apply listed_in in Hk; auto.
  - intros f Hf. assert (G' : forall l s, In (ALeaf l s) (atoms f) -> leaf_written src l s).
    { intros l s Hl. apply G. unfold atoms at 1, Atoms_alter_spec at 1. apply in_or_app. right. eapply list_atoms; eauto. }
    destruct f as [t a]. cbn [fk_type fk_action]. split.
    + destruct (G' (LFkOn (tag t)) (tag_span t)) as (w & At & [[]|(ks & Hk & Ph)]).
      * unfold atoms, Atoms_fkon. repeat (apply in_or_app; left). now left.
      * exists ks. split; [now apply listed_in in Hk|now exists w].
    + destruct (G' (LFkAction (tag a)) (tag_span a)) as (w & At & [[]|(ks & Hk & Ph)]).
      * unfold atoms, Atoms_fkon. do 2 (apply in_or_app; left). apply in_or_app; right. now left.
      * exists ks. split; [|now exists w]. cbn [leaf_words] in Hk. apply in_or_app. apply orb_true_iff in Hk as [Hk|Hk]; apply listed_in in Hk; auto.
Qed.
(** Everything but the rows of [wrong_actions] and [wrong_indexes] is classified as it is
    written. (Missing: that every combination is accepted; SET DEFAULT is not, see below.) *)
Theorem C32_statement_partial : forall src issues o r out,
  parse_statement_api src issues o = Returns r out -> Forall (alter_classified src) (alter_specs r).
Proof. intros src issues o r out H. apply alter_written. intros l s. now apply (C45_statement_leaves src issues o r out l s). Qed.
Theorem C32_statements_partial : forall src issues o l out,
  parse_statements src issues o = Returns l out -> Forall (fun st => Forall (alter_classified src) (alter_specs (Some st))) l.
Proof.
  intros src issues o r out H. apply Forall_forall. intros st Hst. apply alter_written. intros l s Hl. apply (C45_statements_leaves src issues o r out l s H).
  unfold leaves_in in *. apply in_flat_map in Hl as (x & X1 & X2). apply in_flat_map. exists x. split; [|exact X2].
  change (In x (atoms st)) in X1. eapply list_atoms; eauto.
Qed.
Definition alter_actions (r : option stmt) : list (string * span) :=
  match r with
  | Some (SAlterTable a) => flat_map (fun x => match x with
      | AddForeignKey _ _ _ _ _ _ _ _ _ ons => map (fun f => (tag (fk_action f), tag_span (fk_action f))) ons
      | AddIndex _ t _ _ _ _ _ => [(tag t, tag_span t)]
      | _ => [] end) (al_specs a)
  | _ => [] end.
(** False of the code: NO ACTION gives SetNull, SET DEFAULT is not accepted, and a unique or
    spatial index is returned as a full text index. *)
Theorem C32_refuted :
  match parse_statement_api (txt "ALTER TABLE t ADD FOREIGN KEY (a) REFERENCES u (b) ON DELETE NO ACTION") [] default_options with
  | Returns r [] => alter_actions r = [("ForeignKeyOnAction::SetNull", (61, 70))] | _ => False end /\
  match parse_statement_api (txt "ALTER TABLE t ADD FOREIGN KEY (a) REFERENCES u (b) ON DELETE SET DEFAULT") [] default_options with
  | Returns r [i] => alter_actions r = [] /\ i_level i = Error | _ => False end /\
  match parse_statement_api (txt "ALTER TABLE t ADD UNIQUE INDEX i (a), ADD SPATIAL KEY j (b)") [] default_options with
  | Returns r [] => alter_actions r = [("IndexType::FullText", (18, 30)); ("IndexType::FullText", (42, 53))] | _ => False end.
Proof. vm_compute. repeat split. Qed.
Example C32_applies :
  match parse_statement_api (txt "ALTER TABLE t ADD FOREIGN KEY (a) REFERENCES u (b) ON DELETE set null ON UPDATE CASCADE, ADD FULLTEXT KEY (a), ADD primary /* x */ KEY (b)") [] default_options with
  | Returns r [] => alter_actions r = [("ForeignKeyOnAction::SetNull", (61, 69)); ("ForeignKeyOnAction::Cascade", (80, 87));
      ("IndexType::FullText", (93, 105)); ("IndexType::Primary", (115, 134))] /\ length (alter_specs r) = 3 | _ => False end.
Proof. vm_compute. split; reflexivity. Qed.
