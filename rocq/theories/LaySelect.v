(** C56: the functions of Select.v. *)
From Verif Require Export LayDataType Select.
Local Open Scope string_scope.
Local Open Scope list_scope.

Section R.
Context {L : lenv}.
Variable r : recs.
Context {K : rrel r}.
Lemma parse_select_expr_l : pr rm (parse_select_expr r) (parse_select_expr r).
Proof. unfold parse_select_expr. lgo. Qed.
Hint Resolve parse_select_expr_l : lspec.
Lemma parse_alias_l : pr rm parse_alias parse_alias.
Proof. unfold parse_alias. lgo. Qed.
Hint Resolve parse_alias_l : lspec.
Lemma parse_index_hint_l n : pr rm (parse_index_hint n) (parse_index_hint n).
Proof. unfold parse_index_hint. lgo. Qed.
Hint Resolve parse_index_hint_l : lspec.
Lemma parse_table_reference_inner_l : pr rm (parse_table_reference_inner r) (parse_table_reference_inner r).
Proof. unfold parse_table_reference_inner. lgo. Qed.
Hint Resolve parse_table_reference_inner_l : lspec.
Lemma parse_outer_join_l (k : string) : pr rm (parse_outer_join k) (parse_outer_join k).
Proof. unfold parse_outer_join. lgo. Qed.
Hint Resolve parse_outer_join_l : lspec.
Lemma parse_join_type_l : pr rm parse_join_type parse_join_type.
Proof. unfold parse_join_type. lgo. Qed.
Hint Resolve parse_join_type_l : lspec.
Lemma parse_join_spec_l : pr rm (parse_join_spec r) (parse_join_spec r).
Proof. unfold parse_join_spec. lgo. Qed.
Hint Resolve parse_join_spec_l : lspec.
Lemma parse_table_reference_l : pr rm (parse_table_reference r) (parse_table_reference r).
Proof. unfold parse_table_reference. lgo. Qed.
Hint Resolve parse_table_reference_l : lspec.
Lemma parse_flags_l n (tbl : list (string * string)) : pr rm (parse_flags n tbl) (parse_flags n tbl).
Proof. unfold parse_flags. lgo. Qed.
Hint Resolve parse_flags_l : lspec.
Lemma opt_where_l (k : string) : pr rm (opt_where r k) (opt_where r k).
Proof. unfold opt_where. lgo. Qed.
Hint Resolve opt_where_l : lspec.
Lemma parse_order_elements_l : pr rm (parse_order_elements r) (parse_order_elements r).
Proof. unfold parse_order_elements. lgo. Qed.
Hint Resolve parse_order_elements_l : lspec.
Lemma parse_order_by_l : pr rm (parse_order_by r) (parse_order_by r).
Proof. unfold parse_order_by. lgo. Qed.
Hint Resolve parse_order_by_l : lspec.
Lemma parse_limit_l : pr rm (parse_limit r) (parse_limit r).
Proof. unfold parse_limit. lgo. Qed.
Hint Resolve parse_limit_l : lspec.
Lemma parse_locking_l : pr rm (parse_locking r) (parse_locking r).
Proof. unfold parse_locking. lgo. Qed.
Hint Resolve parse_locking_l : lspec.
Lemma parse_select_l : pr rm (parse_select r) (parse_select r).
Proof. unfold parse_select. lgo. Qed.
Hint Resolve parse_select_l : lspec.
Lemma parse_compound_query_bottom_l : pr rm (parse_compound_query_bottom r) (parse_compound_query_bottom r).
Proof. unfold parse_compound_query_bottom. lgo. Qed.
Hint Resolve parse_compound_query_bottom_l : lspec.
Lemma parse_unions_l : pr rm (parse_unions r) (parse_unions r).
Proof. unfold parse_unions. lgo. Qed.
Hint Resolve parse_unions_l : lspec.
Lemma parse_compound_query_l : pr rm (parse_compound_query r) (parse_compound_query r).
Proof. unfold parse_compound_query. lgo. Qed.
Hint Resolve parse_compound_query_l : lspec.
End R.
#[export] Hint Resolve parse_select_expr_l parse_alias_l parse_index_hint_l parse_table_reference_inner_l parse_outer_join_l parse_join_type_l parse_join_spec_l parse_table_reference_l parse_flags_l opt_where_l parse_order_elements_l parse_order_by_l parse_limit_l parse_locking_l parse_select_l parse_compound_query_bottom_l parse_unions_l parse_compound_query_l : lspec.
