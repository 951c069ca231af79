(** C53, C54, C55: the functions of src/data_type.rs, src/qualified_name.rs and src/select.rs. *)
From Verif Require Export KeepGo Select.
Local Open Scope string_scope.
Local Open Scope list_scope.

Section Fns.
Context {E : kenv}.
Lemma parse_qualified_name_k n : keeps_ (parse_qualified_name n).
Proof. unfold parse_qualified_name. kgo. Qed.
Hint Resolve parse_qualified_name_k : kspec.
Lemma parse_width_k : keeps_ parse_width.
Proof. unfold parse_width. kgo. Qed.
Hint Resolve parse_width_k : kspec.
Lemma parse_width_req_k : keeps_ parse_width_req.
Proof. unfold parse_width_req. kgo. Qed.
Hint Resolve parse_width_req_k : kspec.
Lemma parse_enum_set_values_k n : keeps_ (parse_enum_set_values n).
Proof. unfold parse_enum_set_values. kgo. Qed.
Hint Resolve parse_enum_set_values_k : kspec.
Lemma parse_type_k n : keeps_ (parse_type n).
Proof.
  intros t. unfold parse_type. apply kp_token. intros T. pose proof (tame_word t "NUMERIC" T ltac:(cbn; auto)) as Nu. pose proof (tame_word t "BIT" T ltac:(cbn; auto)) as Bi. kgo.
  all: match goal with H : true = true -> _ |- _ => specialize (H eq_refl) | _ => idtac end; rewrite ?light_int in * by assumption; try lia.
Qed.
Hint Resolve parse_type_k : kspec.

(** A statement that is not COPY … FROM STDIN. *)
Definition uS (x : option stmt) (n : nat) : Prop := n <= kW x /\ match x with Some (SCopy _) => False | _ => True end.

Section R.
Variable r : recs.
Class recs_keep := mkRecsKeep {
  kk_expr : forall i, keeps_ (r_expr r i);
  kk_compound : keeps_ (r_compound r);
  kk_item : forall t, kp t 0 uS (r_stmt r) }.
Context {K : recs_keep}.
Lemma kk_stmt : keeps_ (r_stmt r).
Proof. intros t. eapply kp_conseq; [apply kk_item|]. intros a n []. assumption. Qed.
Hint Resolve kk_expr kk_compound kk_stmt : kspec.
Lemma paren_expr_k : keeps_ (paren_expr r).
Proof. unfold paren_expr. kgo. Qed.
Hint Resolve paren_expr_k : kspec.
Lemma parse_property_k b : keeps_ (parse_property r b).
Proof. unfold parse_property. kgo. Qed.
Hint Resolve parse_property_k : kspec.
Lemma parse_data_type_k b : keeps_ (parse_data_type r b).
Proof. unfold parse_data_type. kgo. Qed.
Hint Resolve parse_data_type_k : kspec.
Lemma parse_select_expr_k : keeps_ (parse_select_expr r).
Proof. unfold parse_select_expr. kgo. Qed.
Hint Resolve parse_select_expr_k : kspec.
Lemma parse_alias_k : keeps_ parse_alias.
Proof. unfold parse_alias. kgo. Qed.
Hint Resolve parse_alias_k : kspec.
Lemma parse_index_hint_k n : keeps_ (parse_index_hint n).
Proof. unfold parse_index_hint. kgo. Qed.
Hint Resolve parse_index_hint_k : kspec.
Lemma parse_outer_join_k k : keeps_ (parse_outer_join k).
Proof. unfold parse_outer_join. kgo. Qed.
Hint Resolve parse_outer_join_k : kspec.
Lemma parse_join_type_k : keeps_ parse_join_type.
Proof. unfold parse_join_type. kgo. Qed.
Hint Resolve parse_join_type_k : kspec.
Lemma parse_join_spec_k : keeps_ (parse_join_spec r).
Proof. unfold parse_join_spec. kgo. Qed.
Hint Resolve parse_join_spec_k : kspec.
Lemma parse_table_reference_inner_k : keeps_ (parse_table_reference_inner r).
Proof. unfold parse_table_reference_inner. kgo. Qed.
Hint Resolve parse_table_reference_inner_k : kspec.
Lemma parse_table_reference_k : keeps_ (parse_table_reference r).
Proof. unfold parse_table_reference. kgo. Qed.
Hint Resolve parse_table_reference_k : kspec.
Lemma parse_flags_k n tbl : keeps_ (parse_flags n tbl).
Proof. unfold parse_flags. kgo. Qed.
Hint Resolve parse_flags_k : kspec.
Lemma opt_where_k k : keeps_ (opt_where r k).
Proof. unfold opt_where. kgo. Qed.
Hint Resolve opt_where_k : kspec.
Lemma parse_order_elements_k : keeps_ (parse_order_elements r).
Proof. unfold parse_order_elements. eapply sep_list_k. kgo. Qed.
Hint Resolve parse_order_elements_k : kspec.
Lemma parse_order_by_k : keeps_ (parse_order_by r).
Proof. unfold parse_order_by. kgo. Qed.
Hint Resolve parse_order_by_k : kspec.
Lemma parse_limit_k : keeps_ (parse_limit r).
Proof. unfold parse_limit. kgo. Qed.
Hint Resolve parse_limit_k : kspec.
Lemma parse_locking_k : keeps_ (parse_locking r).
Proof. unfold parse_locking. kgo. Qed.
Hint Resolve parse_locking_k : kspec.
Lemma parse_select_k : keeps_ (parse_select r).
Proof. unfold parse_select. kgo. Qed.
Hint Resolve parse_select_k : kspec.
Lemma parse_compound_query_bottom_k : keeps_ (parse_compound_query_bottom r).
Proof. unfold parse_compound_query_bottom. kgo. Qed.
Hint Resolve parse_compound_query_bottom_k : kspec.
Lemma parse_unions_k : keeps_ (parse_unions r).
Proof. unfold parse_unions. kgo. Qed.
Hint Resolve parse_unions_k : kspec.
Lemma parse_compound_query_k : keeps_ (parse_compound_query r).
Proof. unfold parse_compound_query. kgo. Qed.
Hint Resolve parse_compound_query_k : kspec.
End R.
End Fns.
#[export] Hint Resolve kk_expr kk_compound kk_stmt parse_qualified_name_k parse_width_k parse_width_req_k parse_enum_set_values_k parse_type_k paren_expr_k parse_property_k parse_data_type_k parse_select_expr_k parse_alias_k parse_index_hint_k parse_outer_join_k parse_join_type_k parse_join_spec_k parse_table_reference_inner_k parse_table_reference_k opt_where_k parse_order_elements_k parse_order_by_k parse_limit_k parse_locking_k parse_select_k parse_compound_query_bottom_k parse_unions_k parse_compound_query_k parse_flags_k : kspec.
