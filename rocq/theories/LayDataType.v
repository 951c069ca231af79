(** C56: the functions of DataType.v. *)
From Verif Require Export LayGo DataType.
Local Open Scope string_scope.
Local Open Scope list_scope.

(** A statement that does not read from standard input. *)
Definition ro {L : lenv} (v v' : option stmt) : Prop := v' = respan lf v /\ forall s, v = Some s -> reads_from_stdin s = false.
(** What the induction over the recursion budget gives. *)
Class rrel {L : lenv} (r : recs) := mkRrel {
  rr_expr : forall b, pr rm (r_expr r b) (r_expr r b);
  rr_compound : pr rm (r_compound r) (r_compound r);
  rr_stmt_in : pr ro (r_stmt r) (r_stmt r) }.
Lemma rr_stmt {L : lenv} (r : recs) {K : rrel r} : pr rm (r_stmt r) (r_stmt r).
Proof. eapply pr_conseq; [exact rr_stmt_in|]. now intros a a' [H _]. Qed.
#[export] Hint Extern 1 (pr rm (r_expr _ _) _) => (exact (rr_expr _)) : lspec.
#[export] Hint Extern 1 (pr rm (r_compound _) _) => (exact rr_compound) : lspec.
#[export] Hint Extern 1 (pr rm (r_stmt _) _) => (exact (rr_stmt _)) : lspec.

Section R.
Context {L : lenv}.
Variable r : recs.
Context {K : rrel r}.
Lemma parse_qualified_name_l n : pr rm (parse_qualified_name n) (parse_qualified_name n).
Proof. unfold parse_qualified_name. lgo. Qed.
Hint Resolve parse_qualified_name_l : lspec.
Lemma parse_width_l : pr rm parse_width parse_width.
Proof. unfold parse_width. lgo. Qed.
Hint Resolve parse_width_l : lspec.
Lemma parse_width_req_l : pr rm parse_width_req parse_width_req.
Proof. unfold parse_width_req. lgo. Qed.
Hint Resolve parse_width_req_l : lspec.
Lemma parse_enum_set_values_l n : pr rm (parse_enum_set_values n) (parse_enum_set_values n).
Proof. unfold parse_enum_set_values. lgo. Qed.
Hint Resolve parse_enum_set_values_l : lspec.
Lemma parse_type_l n : pr rm (parse_type n) (parse_type n).
Proof. unfold parse_type. lgo. Qed.
Hint Resolve parse_type_l : lspec.
Lemma paren_expr_l : pr rm (paren_expr r) (paren_expr r).
Proof. unfold paren_expr. lgo. Qed.
Hint Resolve paren_expr_l : lspec.
Lemma parse_property_l (no_as : bool) : pr rm (parse_property r no_as) (parse_property r no_as).
Proof. unfold parse_property. lgo. Qed.
Hint Resolve parse_property_l : lspec.
Lemma parse_data_type_l (no_as : bool) : pr rm (parse_data_type r no_as) (parse_data_type r no_as).
Proof. unfold parse_data_type. lgo. Qed.
Hint Resolve parse_data_type_l : lspec.
End R.
#[export] Hint Resolve parse_qualified_name_l parse_width_l parse_width_req_l parse_enum_set_values_l parse_type_l paren_expr_l parse_property_l parse_data_type_l : lspec.
