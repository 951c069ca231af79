(** The parser reads what the grammar generates: the result, for queries and for sources. *)
From Verif Require Export GrammarQuery.
Local Open Scope string_scope.
Local Open Scope list_scope.

Scheme operand_m := Minimality for operand_is Sort Prop
  with args_m := Minimality for args_are Sort Prop
  with dtype_m := Minimality for dtype_is Sort Prop
  with props_m := Minimality for props_are Sort Prop
  with prop_m := Minimality for prop_is Sort Prop
  with value_m := Minimality for value_is Sort Prop
  with whens_m := Minimality for whens_are Sort Prop
  with else_m := Minimality for else_is Sort Prop
  with items_m := Minimality for items_are Sort Prop
  with expr_m := Minimality for expr_is Sort Prop
  with list_m := Minimality for list_is Sort Prop
  with selected_m := Minimality for selected_is Sort Prop
  with selection_m := Minimality for selection_is Sort Prop
  with table_m := Minimality for table_is Sort Prop
  with on_m := Minimality for on_is Sort Prop
  with tables_m := Minimality for tables_are Sort Prop
  with from_m := Minimality for from_is Sort Prop
  with cond_m := Minimality for cond_is Sort Prop
  with exprs_m := Minimality for exprs_are Sort Prop
  with group_m := Minimality for group_is Sort Prop
  with sorted_m := Minimality for sorted_are Sort Prop
  with order_m := Minimality for order_is Sort Prop
  with limit_m := Minimality for limit_is Sort Prop
  with select_m := Minimality for select_is Sort Prop
  with bottom_m := Minimality for bottom_is Sort Prop
  with unions_m := Minimality for unions_are Sort Prop
  with query_m := Minimality for query_is Sort Prop.
Combined Scheme grammar_m from operand_m, args_m, dtype_m, props_m, prop_m, value_m, whens_m, else_m, items_m, expr_m, list_m, selected_m, selection_m, table_m, on_m, tables_m,
  from_m, cond_m, exprs_m, group_m, sorted_m, order_m, limit_m, select_m, bottom_m, unions_m, query_m.

Lemma select_open o b ts s : select_is o b ts s -> b <> Closed.
Proof. destruct 1; discriminate. Qed.
Lemma grammar_parses o :
  (forall ts e, operand_is o ts e -> P_operand o ts e) /\
  (forall ts l, args_are o ts l -> P_args o ts l) /\
  (forall a b ts d, dtype_is o a b ts d -> P_dtype o a b ts d) /\
  (forall a b ts l, props_are o a b ts l -> P_props o a b ts l) /\
  (forall a b ts p, prop_is o a b ts p -> P_prop o a b ts p) /\
  (forall ts v, value_is o ts v -> P_value o ts v) /\
  (forall ts l, whens_are o ts l -> P_whens o ts l) /\
  (forall ts e, else_is o ts e -> P_else o ts e) /\
  (forall i t ts l, items_are o i t ts l -> P_items o i t ts l) /\
  (forall i ts e, expr_is o i ts e -> P_expr o i ts e) /\
  (forall b ts l, list_is o b ts l -> P_list o b ts l) /\
  (forall ts l, selected_is o ts l -> P_selected o ts l) /\
  (forall ts l, selection_is o ts l -> P_selection o ts l) /\
  (forall ts l, table_is o ts l -> P_table o ts l) /\
  (forall b ts c, on_is o b ts c -> P_on o b ts c) /\
  (forall b ts t, tables_are o b ts t -> P_tables o b ts t) /\
  (forall ts t, from_is o ts t -> P_from o ts t) /\
  (forall k ts c, cond_is o k ts c -> P_cond o k ts c) /\
  (forall ts l, exprs_are o ts l -> P_exprs o ts l) /\
  (forall ts g, group_is o ts g -> P_group o ts g) /\
  (forall ts l, sorted_are o ts l -> P_sorted o ts l) /\
  (forall ts g, order_is o ts g -> P_order o ts g) /\
  (forall ts l, limit_is o ts l -> P_limit o ts l) /\
  (forall b ts s, select_is o b ts s -> P_select o b ts s) /\
  (forall b ts q, bottom_is o b ts q -> P_bottom o b ts q) /\
  (forall b ts l, unions_are o b ts l -> P_unions o b ts l) /\
  (forall ts q, query_is o ts q -> P_query o ts q).
Proof.
  apply (grammar_m o (P_operand o) (P_args o) (P_dtype o) (P_props o) (P_prop o) (P_value o) (P_whens o) (P_else o) (P_items o) (P_expr o) (P_list o) (P_selected o) (P_selection o) (P_table o)
    (P_on o) (P_tables o) (P_from o) (P_cond o) (P_exprs o) (P_group o) (P_sorted o) (P_order o) (P_limit o) (P_select o) (P_bottom o) (P_unions o) (P_query o)).
  - apply c_integer.
  - apply c_float.
  - apply c_string.
  - apply c_null.
  - apply c_true.
  - apply c_false.
  - apply c_name.
  - apply c_star.
  - intros. now apply c_paren.
  - intros. now apply c_arg.
  - apply c_placeholder.
  - apply c_bare.
  - intros. now apply c_call.
  - intros. now apply c_over.
  - intros. now apply c_left.
  - intros. now apply (c_aggregate o k).
  - intros. now apply (c_cast o b).
  - intros. now apply c_extract.
  - intros. now apply (c_timestamp o k).
  - intros. now apply c_interval.
  - apply c_global.
  - apply c_session.
  - intros. now apply c_subquery.
  - intros. now apply c_exists.
  - intros. now apply c_case.
  - left. split; reflexivity.
  - intros ts l _ H. right. exact H.
  - intros. now apply c_dtype.
  - apply c_pp_nil.
  - intros. now apply c_pp_last.
  - intros. now apply (c_pp_more o no_as b).
  - apply c_pr_word.
  - apply c_pr_not_null.
  - apply c_pr_charset.
  - apply c_pr_collate.
  - apply c_pr_comment.
  - intros. now apply c_pr_default.
  - apply c_pr_unique.
  - apply c_pr_unique_key.
  - apply c_pr_generated.
  - apply c_pr_identity.
  - intros. now apply c_pr_as.
  - apply c_pr_primary.
  - intros. now apply c_pr_check.
  - reflexivity.
  - intros ts e _ H. exact H.
  - intros. now apply c_when_one.
  - intros. now apply c_when_more.
  - reflexivity.
  - intros t s ts e K _ H. exists t, ts. auto.
  - apply c_end.
  - intros. now apply c_operand.
  - intros. now apply c_prefix.
  - intros. now apply c_binary.
  - intros. now apply c_is.
  - intros. now apply c_is_not.
  - intros. now apply c_in.
  - intros. now apply c_not_in.
  - intros. now apply c_not_like.
  - intros. now apply c_expr.
  - intros. now apply c_list_query.
  - intros. now apply c_list_one.
  - intros. now apply c_list_more.
  - intros. now apply c_selected.
  - intros. now apply c_selected_as.
  - intros. now apply c_selection_one.
  - intros. now apply c_selection_more.
  - intros. now apply c_table_name.
  - intros. now apply c_table_query.
  - split; reflexivity.
  - intros t s ts e K _ H. split; [reflexivity|]. exists t, ts. auto.
  - intros t s ts l K H. split; [reflexivity|]. exists t, ts. auto.
  - intros. now apply c_tables_one.
  - intros. now apply (c_tables_join o b ts l r js j ts' t b' us c).
  - intros. now apply (c_from_one o b).
  - intros. now apply (c_from_more o b).
  - reflexivity.
  - intros k t s ts e K _ H. exists t, ts. auto.
  - intros. now apply c_exprs_one.
  - intros. now apply c_exprs_more.
  - reflexivity.
  - intros t s t' s' ts l K K' _ H. exists t, s, t', s', ts. auto.
  - intros. now apply c_sorted_one.
  - intros. now apply c_sorted_more.
  - reflexivity.
  - intros t s t' s' ts l K K' _ H. exists t, s, t', s', ts. auto.
  - apply c_limit_none.
  - intros. now apply c_limit_count.
  - intros. now apply c_limit_comma.
  - intros. now apply c_limit_offset.
  - intros. now apply c_select_no_from.
  - intros. now apply c_select_from.
  - intros b ts s S H. apply c_bottom_select; [exact H|]. eapply select_open; eauto.
  - intros. now apply c_bottom_paren.
  - intros. now apply c_unions_one.
  - intros. now apply (c_unions_more o b t s us ty b').
  - intros b ts q _ H. now apply (c_query_one o b).
  - intros. now apply (c_query_union o b ts q b').
Qed.
Lemma query_parses o ts q : query_is o ts q -> P_query o ts q.
Proof. apply grammar_parses. Qed.
Lemma dtype_parses o a b ts d : dtype_is o a b ts d -> P_dtype o a b ts d.
Proof. apply grammar_parses. Qed.
Lemma expr_parses o i ts e : expr_is o i ts e -> P_expr o i ts e.
Proof. apply grammar_parses. Qed.

(** ** Sources *)
Lemma layout_length p r ts : layout p r ts -> length ts <= S (length r).
Proof. induction 1 as [|p g w r t ts _ Hw _ _ _ _ IH]; cbn [length]; [lia|]. rewrite !app_length. destruct w; [congruence|]. cbn [length]. lia. Qed.
Lemma tokens_length src ts : tokens src = Some (inl ts) -> length ts <= S (length src).
Proof. intros T. destruct (tokens_layout src) as (x & E & L). rewrite T in E. injection E as <-. eapply layout_length. exact L. Qed.
(** A statement beginning like a query is parsed as one. *)
Lemma query_statement o ts q n y rest : P_query o ts q -> length ts < n -> from 10 y = true ->
  parses o (parse_statement (knot n)) (ts ++ y :: rest) (Some q) (y :: rest).
Proof.
  intros (H1 & H2 & H3) L F. destruct (cons_len ts H1) as (x & xs & E & Hx). rewrite Hx in H2. rewrite E at 1. cbn [app].
  eapply pa_bind; [apply pa_token|]. change (x :: xs ++ y :: rest) with ((x :: xs) ++ y :: rest). rewrite <- E.
  assert (X : is_kw (fst x) "CREATE" = false /\ is_kw (fst x) "DROP" = false /\ is_kw (fst x) "SELECT" || tok_eqb (fst x) TLParen = true).
  { destruct H2 as [H2| ->]; [|auto]. destruct (fst x); try discriminate H2. destruct k as [| |k]; try discriminate H2. cbn [is_kw kw_eqb] in H2. apply String.eqb_eq in H2 as ->. auto. }
  destruct X as (-> & -> & ->). eapply pa_bind; [now apply H3|]. apply pa_ret.
Qed.
Theorem query_source (o : reading) src issues ts q : written o src ts -> query_is o ts q ->
  parse_statement_api src issues o = Returns (Some q) issues.
Proof.
  intros T Q. destruct (before_tokens o src issues ts 0 T) as (st & E & B & O & I & _). cbn [repeat] in B. destruct T as [T _].
  apply tokens_length in T. rewrite app_length in T. cbn in T. unfold parse_statement_api, parse_statement_n. rewrite E.
  assert (P : parses o (parse_statement_body (knot (budget src))) (ts ++ [eof_of src]) (Some q) [eof_of src]).
  { eapply pa_try; [apply query_statement; [apply query_parses; exact Q|unfold budget; lia|reflexivity]|]. cbn iota. eapply pa_bind; [apply pa_token|].
    cbn [fst eof_of tok_eqb negb]. eapply pa_bind; [apply pa_ret|apply pa_ret]. }
  destruct (P st B O) as (st' & R & _ & S). rewrite R. cbn [outcome_of]. now rewrite (sm_issues _ _ S), I.
Qed.
