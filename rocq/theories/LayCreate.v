(** C56: the functions of Create.v. *)
From Verif Require Export LayExpr Create.
Local Open Scope string_scope.
Local Open Scope list_scope.

Section R.
Context {L : lenv}.
Variable r : recs.
Context {K : rrel r}.
Lemma parse_if_not_exists_l : pr rm parse_if_not_exists parse_if_not_exists.
Proof. unfold parse_if_not_exists. lgo. Qed.
Hint Resolve parse_if_not_exists_l : lspec.
Lemma parse_if_exists_l : pr rm parse_if_exists parse_if_exists.
Proof. unfold parse_if_exists. lgo. Qed.
Hint Resolve parse_if_exists_l : lspec.
Lemma skip_identifiers_l n : pr rm (skip_identifiers n) (skip_identifiers n).
Proof. unfold skip_identifiers. lgo. Qed.
Hint Resolve skip_identifiers_l : lspec.
Lemma parse_create_constraint_definition_l n : pr rm (parse_create_constraint_definition n) (parse_create_constraint_definition n).
Proof. unfold parse_create_constraint_definition. lgo. Qed.
Hint Resolve parse_create_constraint_definition_l : lspec.
Lemma parse_create_definition_l : pr rm (parse_create_definition r) (parse_create_definition r).
Proof. unfold parse_create_definition. lgo. Qed.
Hint Resolve parse_create_definition_l : lspec.
Lemma parse_create_view_l (create_span create_span' : span) (opts opts' : list create_option) : create_span' = respan lf create_span -> opts' = respan lf opts -> pr rm (parse_create_view r create_span opts) (parse_create_view r create_span' opts').
Proof. intros -> ->. unfold parse_create_view. lgo. Qed.
Hint Resolve parse_create_view_l : lspec.
Lemma parse_param_direction_l : pr rm parse_param_direction parse_param_direction.
Proof. unfold parse_param_direction. lgo. Qed.
Hint Resolve parse_param_direction_l : lspec.
Lemma parse_function_param_l : pr rm (parse_function_param r) (parse_function_param r).
Proof. unfold parse_function_param. lgo. Qed.
Hint Resolve parse_function_param_l : lspec.
Lemma skip_dollar_body_l n : pr rm (skip_dollar_body n) (skip_dollar_body n).
Proof. unfold skip_dollar_body. lgo. Qed.
Hint Resolve skip_dollar_body_l : lspec.
Lemma parse_characteristic_l n : pr rm (parse_characteristic n) (parse_characteristic n).
Proof. unfold parse_characteristic. lgo. Qed.
Hint Resolve parse_characteristic_l : lspec.
Lemma parse_create_function_l (create_span create_span' : span) (opts opts' : list create_option) : create_span' = respan lf create_span -> opts' = respan lf opts -> pr rm (parse_create_function r create_span opts) (parse_create_function r create_span' opts').
Proof. intros -> ->. unfold parse_create_function. lgo. Qed.
Hint Resolve parse_create_function_l : lspec.
Lemma parse_create_trigger_l (create_span create_span' : span) (opts opts' : list create_option) : create_span' = respan lf create_span -> opts' = respan lf opts -> pr rm (parse_create_trigger r create_span opts) (parse_create_trigger r create_span' opts').
Proof. intros -> ->. unfold parse_create_trigger. lgo. Qed.
Hint Resolve parse_create_trigger_l : lspec.
Lemma parse_create_type_l (create_span create_span' : span) (opts opts' : list create_option) : create_span' = respan lf create_span -> opts' = respan lf opts -> pr rm (parse_create_type r create_span opts) (parse_create_type r create_span' opts').
Proof. intros -> ->. unfold parse_create_type. lgo. Qed.
Hint Resolve parse_create_type_l : lspec.
Lemma parse_index_column_l : pr rm parse_index_column parse_index_column.
Proof. unfold parse_index_column. lgo. Qed.
Hint Resolve parse_index_column_l : lspec.
Lemma parse_create_index_l (create_span create_span' : span) (opts opts' : list create_option) : create_span' = respan lf create_span -> opts' = respan lf opts -> pr rm (parse_create_index r create_span opts) (parse_create_index r create_span' opts').
Proof. intros -> ->. unfold parse_create_index. lgo. Qed.
Hint Resolve parse_create_index_l : lspec.
Lemma create_table_head_l n : pr rm (create_table_head n) (create_table_head n).
Proof.
  unfold create_table_head. cbv zeta.
  assert (N : forall ine : option span, pr rm (Try (parse_qualified_name n) (fun q => match q with Some q => Ret (q, ine, true) | None => Ret (default_qname, ine, false) end))
    (Try (parse_qualified_name n) (fun q => match q with Some q => Ret (q, respan lf ine, true) | None => Ret (default_qname, respan lf ine, false) end))).
  { intros ine. eapply (pr_try_errs _ _ rm); [lspec|lerrs|lerrs|lintro; lgo|]. intros S. apply pr_ret. unfold rm, default_qname. lzero S. }
  apply (pr_bind (option span) _ rm); [lspec|]. lintro. destruct a as [a|]; lnm.
  - eapply (pr_try_errs _ _ rm); [lspec|lerrs|lerrs|lintro; exact (N (Some _))|]. intros S. apply pr_ret. unfold rm, default_qname. lzero S.
  - exact (N None).
Qed.
Hint Resolve create_table_head_l : lspec.
Lemma parse_table_option_l n (l l' : list table_option) : l' = respan lf l -> pr rm (parse_table_option n l) (parse_table_option n l').
Proof. intros ->. unfold parse_table_option. lgo. Qed.
Hint Resolve parse_table_option_l : lspec.
Lemma parse_create_table_l (create_span create_span' : span) (opts opts' : list create_option) : create_span' = respan lf create_span -> opts' = respan lf opts -> pr rm (parse_create_table r create_span opts) (parse_create_table r create_span' opts').
Proof. intros -> ->. unfold parse_create_table. lgo. Qed.
Hint Resolve parse_create_table_l : lspec.
Lemma parse_create_option_l : pr rm parse_create_option parse_create_option.
Proof. unfold parse_create_option. lgo. Qed.
Hint Resolve parse_create_option_l : lspec.
Lemma parse_create_l : pr rm (parse_create r) (parse_create r).
Proof. unfold parse_create. lgo. Qed.
Hint Resolve parse_create_l : lspec.
End R.
#[export] Hint Resolve parse_if_not_exists_l parse_if_exists_l skip_identifiers_l parse_create_constraint_definition_l parse_create_definition_l parse_create_view_l parse_param_direction_l parse_function_param_l skip_dollar_body_l parse_characteristic_l parse_create_function_l parse_create_trigger_l parse_create_type_l parse_index_column_l parse_create_index_l create_table_head_l parse_table_option_l parse_create_table_l parse_create_option_l parse_create_l : lspec.
