{"id": "m01", "failed": [["Generic.v", "p_issue_grown"]], "lost": ["C03_statement_appends", "C03_statements_append", "C02_statement_segments", "C02_statements_segments", "C43_statement_independent", "C43_statements_independent", "C24_join_is_hull", "C24_join_comm_assoc_idem", "C24_optional", "C24_list_is_hull", "C24_list_order_irrelevant", "C39_defaults", "C39_each_sets_its_own", "C39_extensional", "C39_commute_and_last_wins", "C14_decode_single", "C14_consumed_value", "C14_decode_single_id", "C15_refuted", "C15_never_undoubled", "C15_plain_partial", "C23_exact_or_error", "C23_decimal", "C26_line", "C26_display_never_panics", "C26_printed", "C26_number", "C26_is_ok", "C38_eq_ignores_span", "C38_order_total_and_consistent", "C38_borrow_consistent", "C01_statement_spans", "C01_statements_spans", "C01_slicing", "C04_none_means_error", "C05_statement", "C05_statements", "C05_error_free", "C06_statement_terminates", "C07_statements_terminate_partial", "C07_refuted", "C08_statement_panics_partial", "C08_statements_panics_partial", "C08_refuted", "C08_safe_inputs", "C11_statement_no_ice", "C11_statements_no_ice", "C12_statement_numbered", "C12_statements_numbered", "C13_statement_dollar", "C13_statements_dollar", "C29_statement_consumes_all", "C29_statements_consume_all", "C30_statement_block", "C30_statements_block", "C30_resumes", "C36_statement_names", "C36_statements_names", "C19_statement_same_ast", "C19_statements_same_ast", "C20_caps_lint_partial", "C20_caps_lint_statement_partial", "C20_only_lint_issues", "C20_refuted"], "tail": ""}
{"id": "m02", "failed": [["Generic.v", "p_issue_grown"]], "lost": ["C03_statement_appends", "C03_statements_append", "C02_statement_segments", "C02_statements_segments", "C43_statement_independent", "C43_statements_independent", "C24_join_is_hull", "C24_join_comm_assoc_idem", "C24_optional", "C24_list_is_hull", "C24_list_order_irrelevant", "C39_defaults", "C39_each_sets_its_own", "C39_extensional", "C39_commute_and_last_wins", "C14_decode_single", "C14_consumed_value", "C14_decode_single_id", "C15_refuted", "C15_never_undoubled", "C15_plain_partial", "C23_exact_or_error", "C23_decimal", "C26_line", "C26_display_never_panics", "C26_printed", "C26_number", "C26_is_ok", "C38_eq_ignores_span", "C38_order_total_and_consistent", "C38_borrow_consistent", "C01_statement_spans", "C01_statements_spans", "C01_slicing", "C04_none_means_error", "C05_statement", "C05_statements", "C05_error_free", "C06_statement_terminates", "C07_statements_terminate_partial", "C07_refuted", "C08_statement_panics_partial", "C08_statements_panics_partial", "C08_refuted", "C08_safe_inputs", "C11_statement_no_ice", "C11_statements_no_ice", "C12_statement_numbered", "C12_statements_numbered", "C13_statement_dollar", "C13_statements_dollar", "C29_statement_consumes_all", "C29_statements_consume_all", "C30_statement_block", "C30_statements_block", "C30_resumes", "C36_statement_names", "C36_statements_names", "C19_statement_same_ast", "C19_statements_same_ast", "C20_caps_lint_partial", "C20_caps_lint_statement_partial", "C20_only_lint_issues", "C20_refuted"], "tail": ""}
{"id": "m03", "failed": [["SafePrim.v", "wp_expected_failure"]], "lost": ["C01_statement_spans", "C01_statements_spans", "C01_slicing", "C04_none_means_error", "C05_statement", "C05_statements", "C05_error_free", "C06_statement_terminates", "C07_statements_terminate_partial", "C07_refuted", "C08_statement_panics_partial", "C08_statements_panics_partial", "C08_refuted", "C08_safe_inputs", "C11_statement_no_ice", "C11_statements_no_ice", "C12_statement_numbered", "C12_statements_numbered", "C13_statement_dollar", "C13_statements_dollar", "C29_statement_consumes_all", "C29_statements_consume_all", "C30_statement_block", "C30_statements_block", "C30_resumes", "C36_statement_names", "C36_statements_names", "C19_statement_same_ast", "C19_statements_same_ast", "C20_caps_lint_partial", "C20_caps_lint_statement_partial", "C20_only_lint_issues", "C20_refuted"], "tail": ""}
{"id": "m04", "failed": [["SafeExpr.v", "step_cast_spec"]], "lost": ["C01_statement_spans", "C01_statements_spans", "C01_slicing", "C04_none_means_error", "C05_statement", "C05_statements", "C05_error_free", "C06_statement_terminates", "C07_statements_terminate_partial", "C07_refuted", "C08_statement_panics_partial", "C08_statements_panics_partial", "C08_refuted", "C08_safe_inputs", "C11_statement_no_ice", "C11_statements_no_ice", "C12_statement_numbered", "C12_statements_numbered", "C13_statement_dollar", "C13_statements_dollar", "C29_statement_consumes_all", "C29_statements_consume_all", "C30_statement_block", "C30_statements_block", "C30_resumes", "C36_statement_names", "C36_statements_names", "C19_statement_same_ast", "C19_statements_same_ast", "C20_caps_lint_partial", "C20_caps_lint_statement_partial", "C20_only_lint_issues", "C20_refuted"], "tail": ""}
{"id": "m05", "failed": [["SafeTac.v", "skip_token_spec"]], "lost": ["C01_statement_spans", "C01_statements_spans", "C01_slicing", "C04_none_means_error", "C05_statement", "C05_statements", "C05_error_free", "C06_statement_terminates", "C07_statements_terminate_partial", "C07_refuted", "C08_statement_panics_partial", "C08_statements_panics_partial", "C08_refuted", "C08_safe_inputs", "C11_statement_no_ice", "C11_statements_no_ice", "C12_statement_numbered", "C12_statements_numbered", "C13_statement_dollar", "C13_statements_dollar", "C29_statement_consumes_all", "C29_statements_consume_all", "C30_statement_block", "C30_statements_block", "C30_resumes", "C36_statement_names", "C36_statements_names", "C19_statement_same_ast", "C19_statements_same_ast", "C20_caps_lint_partial", "C20_caps_lint_statement_partial", "C20_only_lint_issues", "C20_refuted"], "tail": ""}
{"id": "m06", "failed": [["PropsBasic.v", "decode_double_loop"]], "lost": ["C14_decode_single", "C14_consumed_value", "C14_decode_single_id", "C15_refuted", "C15_never_undoubled", "C15_plain_partial", "C23_exact_or_error", "C23_decimal", "C26_line", "C26_display_never_panics", "C26_printed", "C26_number", "C26_is_ok", "C38_eq_ignores_span", "C38_order_total_and_consistent", "C38_borrow_consistent", "C01_statement_spans", "C01_statements_spans", "C01_slicing", "C04_none_means_error", "C05_statement", "C05_statements", "C05_error_free", "C06_statement_terminates", "C07_statements_terminate_partial", "C07_refuted", "C08_statement_panics_partial", "C08_statements_panics_partial", "C08_refuted", "C08_safe_inputs", "C11_statement_no_ice", "C11_statements_no_ice", "C12_statement_numbered", "C12_statements_numbered", "C13_statement_dollar", "C13_statements_dollar", "C29_statement_consumes_all", "C29_statements_consume_all", "C30_statement_block", "C30_statements_block", "C30_resumes", "C36_statement_names", "C36_statements_names", "C19_statement_same_ast", "C19_statements_same_ast", "C20_caps_lint_partial", "C20_caps_lint_statement_partial", "C20_only_lint_issues", "C20_refuted"], "tail": ""}
{"id": "m07", "failed": [["LexerFacts.v", "simple_literal_spec"]], "lost": ["C35_tokens_partition_source", "C35_ranges_increase", "C35_eof_forever", "C35_layout_is_read", "C18_insert_trivia", "C18_insert_white", "C14_lexed_as_one_token", "C40_lookup_of_name", "C40_names_distinct", "C40_table_has_no_duplicates", "C40_unknown_word", "C16_case_insensitive", "C16_every_case", "C17_quoted_is_not_a_keyword", "C17_only_quoted", "C03_statement_appends", "C03_statements_append", "C02_statement_segments", "C02_statements_segments", "C43_statement_independent", "C43_statements_independent", "C24_join_is_hull", "C24_join_comm_assoc_idem", "C24_optional", "C24_list_is_hull", "C24_list_order_irrelevant", "C39_defaults", "C39_each_sets_its_own", "C39_extensional", "C39_commute_and_last_wins", "C14_decode_single", "C14_consumed_value", "C14_decode_single_id", "C15_refuted", "C15_never_undoubled", "C15_plain_partial", "C23_exact_or_error", "C23_decimal", "C26_line", "C26_display_never_panics", "C26_printed", "C26_number", "C26_is_ok", "C38_eq_ignores_span", "C38_order_total_and_consistent", "C38_borrow_consistent", "C01_statement_spans", "C01_statements_spans", "C01_slicing", "C04_none_means_error", "C05_statement", "C05_statements", "C05_error_free", "C06_statement_terminates", "C07_statements_terminate_partial", "C07_refuted", "C08_statement_panics_partial", "C08_statements_panics_partial", "C08_refuted", "C08_safe_inputs", "C11_statement_no_ice", "C11_statements_no_ice", "C12_statement_numbered", "C12_statements_numbered", "C13_statement_dollar", "C13_statements_dollar", "C29_statement_consumes_all", "C29_statements_consume_all", "C30_statement_block", "C30_statements_block", "C30_resumes", "C36_statement_names", "C36_statements_names", "C19_statement_same_ast", "C19_statements_same_ast", "C20_caps_lint_partial", "C20_caps_lint_statement_partial", "C20_only_lint_issues", "C20_refuted"], "tail": ""}
{"id": "m08", "failed": [["LexerFacts.v", "lex_char_spec"]], "lost": ["C35_tokens_partition_source", "C35_ranges_increase", "C35_eof_forever", "C35_layout_is_read", "C18_insert_trivia", "C18_insert_white", "C14_lexed_as_one_token", "C40_lookup_of_name", "C40_names_distinct", "C40_table_has_no_duplicates", "C40_unknown_word", "C16_case_insensitive", "C16_every_case", "C17_quoted_is_not_a_keyword", "C17_only_quoted", "C03_statement_appends", "C03_statements_append", "C02_statement_segments", "C02_statements_segments", "C43_statement_independent", "C43_statements_independent", "C24_join_is_hull", "C24_join_comm_assoc_idem", "C24_optional", "C24_list_is_hull", "C24_list_order_irrelevant", "C39_defaults", "C39_each_sets_its_own", "C39_extensional", "C39_commute_and_last_wins", "C14_decode_single", "C14_consumed_value", "C14_decode_single_id", "C15_refuted", "C15_never_undoubled", "C15_plain_partial", "C23_exact_or_error", "C23_decimal", "C26_line", "C26_display_never_panics", "C26_printed", "C26_number", "C26_is_ok", "C38_eq_ignores_span", "C38_order_total_and_consistent", "C38_borrow_consistent", "C01_statement_spans", "C01_statements_spans", "C01_slicing", "C04_none_means_error", "C05_statement", "C05_statements", "C05_error_free", "C06_statement_terminates", "C07_statements_terminate_partial", "C07_refuted", "C08_statement_panics_partial", "C08_statements_panics_partial", "C08_refuted", "C08_safe_inputs", "C11_statement_no_ice", "C11_statements_no_ice", "C12_statement_numbered", "C12_statements_numbered", "C13_statement_dollar", "C13_statements_dollar", "C29_statement_consumes_all", "C29_statements_consume_all", "C30_statement_block", "C30_statements_block", "C30_resumes", "C36_statement_names", "C36_statements_names", "C19_statement_same_ast", "C19_statements_same_ast", "C20_caps_lint_partial", "C20_caps_lint_statement_partial", "C20_only_lint_issues", "C20_refuted"], "tail": ""}
{"id": "m09", "failed": [["LexerFacts.v", "skip_line_spec"]], "lost": ["C35_tokens_partition_source", "C35_ranges_increase", "C35_eof_forever", "C35_layout_is_read", "C18_insert_trivia", "C18_insert_white", "C14_lexed_as_one_token", "C40_lookup_of_name", "C40_names_distinct", "C40_table_has_no_duplicates", "C40_unknown_word", "C16_case_insensitive", "C16_every_case", "C17_quoted_is_not_a_keyword", "C17_only_quoted", "C03_statement_appends", "C03_statements_append", "C02_statement_segments", "C02_statements_segments", "C43_statement_independent", "C43_statements_independent", "C24_join_is_hull", "C24_join_comm_assoc_idem", "C24_optional", "C24_list_is_hull", "C24_list_order_irrelevant", "C39_defaults", "C39_each_sets_its_own", "C39_extensional", "C39_commute_and_last_wins", "C14_decode_single", "C14_consumed_value", "C14_decode_single_id", "C15_refuted", "C15_never_undoubled", "C15_plain_partial", "C23_exact_or_error", "C23_decimal", "C26_line", "C26_display_never_panics", "C26_printed", "C26_number", "C26_is_ok", "C38_eq_ignores_span", "C38_order_total_and_consistent", "C38_borrow_consistent", "C01_statement_spans", "C01_statements_spans", "C01_slicing", "C04_none_means_error", "C05_statement", "C05_statements", "C05_error_free", "C06_statement_terminates", "C07_statements_terminate_partial", "C07_refuted", "C08_statement_panics_partial", "C08_statements_panics_partial", "C08_refuted", "C08_safe_inputs", "C11_statement_no_ice", "C11_statements_no_ice", "C12_statement_numbered", "C12_statements_numbered", "C13_statement_dollar", "C13_statements_dollar", "C29_statement_consumes_all", "C29_statements_consume_all", "C30_statement_block", "C30_statements_block", "C30_resumes", "C36_statement_names", "C36_statements_names", "C19_statement_same_ast", "C19_statements_same_ast", "C20_caps_lint_partial", "C20_caps_lint_statement_partial", "C20_only_lint_issues", "C20_refuted"], "tail": ""}
{"id": "m10", "failed": [["PropsBasic.v", "C23_exact_or_error"], ["SafeGo.v", "consume_int_spec"]], "lost": ["C23_exact_or_error", "C23_decimal", "C26_line", "C26_display_never_panics", "C26_printed", "C26_number", "C26_is_ok", "C38_eq_ignores_span", "C38_order_total_and_consistent", "C38_borrow_consistent", "C01_statement_spans", "C01_statements_spans", "C01_slicing", "C04_none_means_error", "C05_statement", "C05_statements", "C05_error_free", "C06_statement_terminates", "C07_statements_terminate_partial", "C07_refuted", "C08_statement_panics_partial", "C08_statements_panics_partial", "C08_refuted", "C08_safe_inputs", "C11_statement_no_ice", "C11_statements_no_ice", "C12_statement_numbered", "C12_statements_numbered", "C13_statement_dollar", "C13_statements_dollar", "C29_statement_consumes_all", "C29_statements_consume_all", "C30_statement_block", "C30_statements_block", "C30_resumes", "C36_statement_names", "C36_statements_names", "C19_statement_same_ast", "C19_statements_same_ast", "C20_caps_lint_partial", "C20_caps_lint_statement_partial", "C20_only_lint_issues", "C20_refuted"], "tail": ""}
{"id": "m11", "failed": [["PropsBasic.v", "C24_join_is_hull"], ["SafeLogic.v", "vspan_join"]], "lost": ["C24_join_is_hull", "C24_join_comm_assoc_idem", "C24_optional", "C24_list_is_hull", "C24_list_order_irrelevant", "C39_defaults", "C39_each_sets_its_own", "C39_extensional", "C39_commute_and_last_wins", "C14_decode_single", "C14_consumed_value", "C14_decode_single_id", "C15_refuted", "C15_never_undoubled", "C15_plain_partial", "C23_exact_or_error", "C23_decimal", "C26_line", "C26_display_never_panics", "C26_printed", "C26_number", "C26_is_ok", "C38_eq_ignores_span", "C38_order_total_and_consistent", "C38_borrow_consistent", "C01_statement_spans", "C01_statements_spans", "C01_slicing", "C04_none_means_error", "C05_statement", "C05_statements", "C05_error_free", "C06_statement_terminates", "C07_statements_terminate_partial", "C07_refuted", "C08_statement_panics_partial", "C08_statements_panics_partial", "C08_refuted", "C08_safe_inputs", "C11_statement_no_ice", "C11_statements_no_ice", "C12_statement_numbered", "C12_statements_numbered", "C13_statement_dollar", "C13_statements_dollar", "C29_statement_consumes_all", "C29_statements_consume_all", "C30_statement_block", "C30_statements_block", "C30_resumes", "C36_statement_names", "C36_statements_names", "C19_statement_same_ast", "C19_statements_same_ast", "C20_caps_lint_partial", "C20_caps_lint_statement_partial", "C20_only_lint_issues", "C20_refuted"], "tail": ""}
{"id": "m12", "failed": [["PropsBasic.v", "C26_line"]], "lost": ["C26_line", "C26_display_never_panics", "C26_printed", "C26_number", "C26_is_ok", "C38_eq_ignores_span", "C38_order_total_and_consistent", "C38_borrow_consistent", "C01_statement_spans", "C01_statements_spans", "C01_slicing", "C04_none_means_error", "C05_statement", "C05_statements", "C05_error_free", "C06_statement_terminates", "C07_statements_terminate_partial", "C07_refuted", "C08_statement_panics_partial", "C08_statements_panics_partial", "C08_refuted", "C08_safe_inputs", "C11_statement_no_ice", "C11_statements_no_ice", "C12_statement_numbered", "C12_statements_numbered", "C13_statement_dollar", "C13_statements_dollar", "C29_statement_consumes_all", "C29_statements_consume_all", "C30_statement_block", "C30_statements_block", "C30_resumes", "C36_statement_names", "C36_statements_names", "C19_statement_same_ast", "C19_statements_same_ast", "C20_caps_lint_partial", "C20_caps_lint_statement_partial", "C20_only_lint_issues", "C20_refuted"], "tail": ""}
{"id": "m13", "failed": [["SafeExpr.v", "step_oarg"]], "lost": ["C01_statement_spans", "C01_statements_spans", "C01_slicing", "C04_none_means_error", "C05_statement", "C05_statements", "C05_error_free", "C06_statement_terminates", "C07_statements_terminate_partial", "C07_refuted", "C08_statement_panics_partial", "C08_statements_panics_partial", "C08_refuted", "C08_safe_inputs", "C11_statement_no_ice", "C11_statements_no_ice", "C12_statement_numbered", "C12_statements_numbered", "C13_statement_dollar", "C13_statements_dollar", "C29_statement_consumes_all", "C29_statements_consume_all", "C30_statement_block", "C30_statements_block", "C30_resumes", "C36_statement_names", "C36_statements_names", "C19_statement_same_ast", "C19_statements_same_ast", "C20_caps_lint_partial", "C20_caps_lint_statement_partial", "C20_only_lint_issues", "C20_refuted"], "tail": ""}
{"id": "m14", "failed": [["SafeExpr.v", "step_tail_spec"]], "lost": ["C01_statement_spans", "C01_statements_spans", "C01_slicing", "C04_none_means_error", "C05_statement", "C05_statements", "C05_error_free", "C06_statement_terminates", "C07_statements_terminate_partial", "C07_refuted", "C08_statement_panics_partial", "C08_statements_panics_partial", "C08_refuted", "C08_safe_inputs", "C11_statement_no_ice", "C11_statements_no_ice", "C12_statement_numbered", "C12_statements_numbered", "C13_statement_dollar", "C13_statements_dollar", "C29_statement_consumes_all", "C29_statements_consume_all", "C30_statement_block", "C30_statements_block", "C30_resumes", "C36_statement_names", "C36_statements_names", "C19_statement_same_ast", "C19_statements_same_ast", "C20_caps_lint_partial", "C20_caps_lint_statement_partial", "C20_only_lint_issues", "C20_refuted"], "tail": ""}
{"id": "m15", "failed": [["SafeTop.v", "statement_body_wp"]], "lost": ["C01_statement_spans", "C01_statements_spans", "C01_slicing", "C04_none_means_error", "C05_statement", "C05_statements", "C05_error_free", "C06_statement_terminates", "C07_statements_terminate_partial", "C07_refuted", "C08_statement_panics_partial", "C08_statements_panics_partial", "C08_refuted", "C08_safe_inputs", "C11_statement_no_ice", "C11_statements_no_ice", "C12_statement_numbered", "C12_statements_numbered", "C13_statement_dollar", "C13_statements_dollar", "C29_statement_consumes_all", "C29_statements_consume_all", "C30_statement_block", "C30_statements_block", "C30_resumes", "C36_statement_names", "C36_statements_names", "C19_statement_same_ast", "C19_statements_same_ast", "C20_caps_lint_partial", "C20_caps_lint_statement_partial", "C20_only_lint_issues", "C20_refuted"], "tail": ""}
{"id": "m16", "failed": [["StdinFacts.v", "scan_stdin_spec"]], "lost": ["C01_statement_spans", "C01_statements_spans", "C01_slicing", "C04_none_means_error", "C05_statement", "C05_statements", "C05_error_free", "C06_statement_terminates", "C07_statements_terminate_partial", "C07_refuted", "C08_statement_panics_partial", "C08_statements_panics_partial", "C08_refuted", "C08_safe_inputs", "C11_statement_no_ice", "C11_statements_no_ice", "C12_statement_numbered", "C12_statements_numbered", "C13_statement_dollar", "C13_statements_dollar", "C29_statement_consumes_all", "C29_statements_consume_all", "C30_statement_block", "C30_statements_block", "C30_resumes", "C36_statement_names", "C36_statements_names", "C19_statement_same_ast", "C19_statements_same_ast", "C20_caps_lint_partial", "C20_caps_lint_statement_partial", "C20_only_lint_issues", "C20_refuted"], "tail": ""}
{"id": "m17", "failed": [["SafeTac.v", "token_to_plain_identifier_spec"]], "lost": ["C01_statement_spans", "C01_statements_spans", "C01_slicing", "C04_none_means_error", "C05_statement", "C05_statements", "C05_error_free", "C06_statement_terminates", "C07_statements_terminate_partial", "C07_refuted", "C08_statement_panics_partial", "C08_statements_panics_partial", "C08_refuted", "C08_safe_inputs", "C11_statement_no_ice", "C11_statements_no_ice", "C12_statement_numbered", "C12_statements_numbered", "C13_statement_dollar", "C13_statements_dollar", "C29_statement_consumes_all", "C29_statements_consume_all", "C30_statement_block", "C30_statements_block", "C30_resumes", "C36_statement_names", "C36_statements_names", "C19_statement_same_ast", "C19_statements_same_ast", "C20_caps_lint_partial", "C20_caps_lint_statement_partial", "C20_only_lint_issues", "C20_refuted"], "tail": ""}
{"id": "m18", "failed": [["PropsBasic.v", "C38_eq_ignores_span"]], "lost": ["C38_eq_ignores_span", "C38_order_total_and_consistent", "C38_borrow_consistent", "C01_statement_spans", "C01_statements_spans", "C01_slicing", "C04_none_means_error", "C05_statement", "C05_statements", "C05_error_free", "C06_statement_terminates", "C07_statements_terminate_partial", "C07_refuted", "C08_statement_panics_partial", "C08_statements_panics_partial", "C08_refuted", "C08_safe_inputs", "C11_statement_no_ice", "C11_statements_no_ice", "C12_statement_numbered", "C12_statements_numbered", "C13_statement_dollar", "C13_statements_dollar", "C29_statement_consumes_all", "C29_statements_consume_all", "C30_statement_block", "C30_statements_block", "C30_resumes", "C36_statement_names", "C36_statements_names", "C19_statement_same_ast", "C19_statements_same_ast", "C20_caps_lint_partial", "C20_caps_lint_statement_partial", "C20_only_lint_issues", "C20_refuted"], "tail": ""}
{"id": "m19", "failed": [["SafeExpr.v", "parse_expression_spec"]], "lost": ["C01_statement_spans", "C01_statements_spans", "C01_slicing", "C04_none_means_error", "C05_statement", "C05_statements", "C05_error_free", "C06_statement_terminates", "C07_statements_terminate_partial", "C07_refuted", "C08_statement_panics_partial", "C08_statements_panics_partial", "C08_refuted", "C08_safe_inputs", "C11_statement_no_ice", "C11_statements_no_ice", "C12_statement_numbered", "C12_statements_numbered", "C13_statement_dollar", "C13_statements_dollar", "C29_statement_consumes_all", "C29_statements_consume_all", "C30_statement_block", "C30_statements_block", "C30_resumes", "C36_statement_names", "C36_statements_names", "C19_statement_same_ast", "C19_statements_same_ast", "C20_caps_lint_partial", "C20_caps_lint_statement_partial", "C20_only_lint_issues", "C20_refuted"], "tail": ""}
{"id": "m20", "failed": [["SafeTop.v", "statements_step_wp"]], "lost": ["C01_statement_spans", "C01_statements_spans", "C01_slicing", "C04_none_means_error", "C05_statement", "C05_statements", "C05_error_free", "C06_statement_terminates", "C07_statements_terminate_partial", "C07_refuted", "C08_statement_panics_partial", "C08_statements_panics_partial", "C08_refuted", "C08_safe_inputs", "C11_statement_no_ice", "C11_statements_no_ice", "C12_statement_numbered", "C12_statements_numbered", "C13_statement_dollar", "C13_statements_dollar", "C29_statement_consumes_all", "C29_statements_consume_all", "C30_statement_block", "C30_statements_block", "C30_resumes", "C36_statement_names", "C36_statements_names", "C19_statement_same_ast", "C19_statements_same_ast", "C20_caps_lint_partial", "C20_caps_lint_statement_partial", "C20_only_lint_issues", "C20_refuted"], "tail": ""}
{"id": "m21", "failed": [["Generic.v", "exec_lint"]], "lost": ["C03_statement_appends", "C03_statements_append", "C02_statement_segments", "C02_statements_segments", "C43_statement_independent", "C43_statements_independent", "C24_join_is_hull", "C24_join_comm_assoc_idem", "C24_optional", "C24_list_is_hull", "C24_list_order_irrelevant", "C39_defaults", "C39_each_sets_its_own", "C39_extensional", "C39_commute_and_last_wins", "C14_decode_single", "C14_consumed_value", "C14_decode_single_id", "C15_refuted", "C15_never_undoubled", "C15_plain_partial", "C23_exact_or_error", "C23_decimal", "C26_line", "C26_display_never_panics", "C26_printed", "C26_number", "C26_is_ok", "C38_eq_ignores_span", "C38_order_total_and_consistent", "C38_borrow_consistent", "C01_statement_spans", "C01_statements_spans", "C01_slicing", "C04_none_means_error", "C05_statement", "C05_statements", "C05_error_free", "C06_statement_terminates", "C07_statements_terminate_partial", "C07_refuted", "C08_statement_panics_partial", "C08_statements_panics_partial", "C08_refuted", "C08_safe_inputs", "C11_statement_no_ice", "C11_statements_no_ice", "C12_statement_numbered", "C12_statements_numbered", "C13_statement_dollar", "C13_statements_dollar", "C29_statement_consumes_all", "C29_statements_consume_all", "C30_statement_block", "C30_statements_block", "C30_resumes", "C36_statement_names", "C36_statements_names", "C19_statement_same_ast", "C19_statements_same_ast", "C20_caps_lint_partial", "C20_caps_lint_statement_partial", "C20_only_lint_issues", "C20_refuted"], "tail": ""}
{"id": "m22", "failed": [["Generic.v", "exec_grown"]], "lost": ["C03_statement_appends", "C03_statements_append", "C02_statement_segments", "C02_statements_segments", "C43_statement_independent", "C43_statements_independent", "C24_join_is_hull", "C24_join_comm_assoc_idem", "C24_optional", "C24_list_is_hull", "C24_list_order_irrelevant", "C39_defaults", "C39_each_sets_its_own", "C39_extensional", "C39_commute_and_last_wins", "C14_decode_single", "C14_consumed_value", "C14_decode_single_id", "C15_refuted", "C15_never_undoubled", "C15_plain_partial", "C23_exact_or_error", "C23_decimal", "C26_line", "C26_display_never_panics", "C26_printed", "C26_number", "C26_is_ok", "C38_eq_ignores_span", "C38_order_total_and_consistent", "C38_borrow_consistent", "C01_statement_spans", "C01_statements_spans", "C01_slicing", "C04_none_means_error", "C05_statement", "C05_statements", "C05_error_free", "C06_statement_terminates", "C07_statements_terminate_partial", "C07_refuted", "C08_statement_panics_partial", "C08_statements_panics_partial", "C08_refuted", "C08_safe_inputs", "C11_statement_no_ice", "C11_statements_no_ice", "C12_statement_numbered", "C12_statements_numbered", "C13_statement_dollar", "C13_statements_dollar", "C29_statement_consumes_all", "C29_statements_consume_all", "C30_statement_block", "C30_statements_block", "C30_resumes", "C36_statement_names", "C36_statements_names", "C19_statement_same_ast", "C19_statements_same_ast", "C20_caps_lint_partial", "C20_caps_lint_statement_partial", "C20_only_lint_issues", "C20_refuted"], "tail": ""}
{"id": "m23", "failed": [["LexerFacts.v", "next_token_f_spec"]], "lost": ["C35_tokens_partition_source", "C35_ranges_increase", "C35_eof_forever", "C35_layout_is_read", "C18_insert_trivia", "C18_insert_white", "C14_lexed_as_one_token", "C40_lookup_of_name", "C40_names_distinct", "C40_table_has_no_duplicates", "C40_unknown_word", "C16_case_insensitive", "C16_every_case", "C17_quoted_is_not_a_keyword", "C17_only_quoted", "C03_statement_appends", "C03_statements_append", "C02_statement_segments", "C02_statements_segments", "C43_statement_independent", "C43_statements_independent", "C24_join_is_hull", "C24_join_comm_assoc_idem", "C24_optional", "C24_list_is_hull", "C24_list_order_irrelevant", "C39_defaults", "C39_each_sets_its_own", "C39_extensional", "C39_commute_and_last_wins", "C14_decode_single", "C14_consumed_value", "C14_decode_single_id", "C15_refuted", "C15_never_undoubled", "C15_plain_partial", "C23_exact_or_error", "C23_decimal", "C26_line", "C26_display_never_panics", "C26_printed", "C26_number", "C26_is_ok", "C38_eq_ignores_span", "C38_order_total_and_consistent", "C38_borrow_consistent", "C01_statement_spans", "C01_statements_spans", "C01_slicing", "C04_none_means_error", "C05_statement", "C05_statements", "C05_error_free", "C06_statement_terminates", "C07_statements_terminate_partial", "C07_refuted", "C08_statement_panics_partial", "C08_statements_panics_partial", "C08_refuted", "C08_safe_inputs", "C11_statement_no_ice", "C11_statements_no_ice", "C12_statement_numbered", "C12_statements_numbered", "C13_statement_dollar", "C13_statements_dollar", "C29_statement_consumes_all", "C29_statements_consume_all", "C30_statement_block", "C30_statements_block", "C30_resumes", "C36_statement_names", "C36_statements_names", "C19_statement_same_ast", "C19_statements_same_ast", "C20_caps_lint_partial", "C20_caps_lint_statement_partial", "C20_only_lint_issues", "C20_refuted"], "tail": ""}
{"id": "m24", "failed": [["LexerFacts.v", "scan_string_spec"]], "lost": ["C35_tokens_partition_source", "C35_ranges_increase", "C35_eof_forever", "C35_layout_is_read", "C18_insert_trivia", "C18_insert_white", "C14_lexed_as_one_token", "C40_lookup_of_name", "C40_names_distinct", "C40_table_has_no_duplicates", "C40_unknown_word", "C16_case_insensitive", "C16_every_case", "C17_quoted_is_not_a_keyword", "C17_only_quoted", "C03_statement_appends", "C03_statements_append", "C02_statement_segments", "C02_statements_segments", "C43_statement_independent", "C43_statements_independent", "C24_join_is_hull", "C24_join_comm_assoc_idem", "C24_optional", "C24_list_is_hull", "C24_list_order_irrelevant", "C39_defaults", "C39_each_sets_its_own", "C39_extensional", "C39_commute_and_last_wins", "C14_decode_single", "C14_consumed_value", "C14_decode_single_id", "C15_refuted", "C15_never_undoubled", "C15_plain_partial", "C23_exact_or_error", "C23_decimal", "C26_line", "C26_display_never_panics", "C26_printed", "C26_number", "C26_is_ok", "C38_eq_ignores_span", "C38_order_total_and_consistent", "C38_borrow_consistent", "C01_statement_spans", "C01_statements_spans", "C01_slicing", "C04_none_means_error", "C05_statement", "C05_statements", "C05_error_free", "C06_statement_terminates", "C07_statements_terminate_partial", "C07_refuted", "C08_statement_panics_partial", "C08_statements_panics_partial", "C08_refuted", "C08_safe_inputs", "C11_statement_no_ice", "C11_statements_no_ice", "C12_statement_numbered", "C12_statements_numbered", "C13_statement_dollar", "C13_statements_dollar", "C29_statement_consumes_all", "C29_statements_consume_all", "C30_statement_block", "C30_statements_block", "C30_resumes", "C36_statement_names", "C36_statements_names", "C19_statement_same_ast", "C19_statements_same_ast", "C20_caps_lint_partial", "C20_caps_lint_statement_partial", "C20_only_lint_issues", "C20_refuted"], "tail": ""}
{"id": "m25", "failed": [["Generic.v", "p_issue_grown"]], "lost": ["C03_statement_appends", "C03_statements_append", "C02_statement_segments", "C02_statements_segments", "C43_statement_independent", "C43_statements_independent", "C24_join_is_hull", "C24_join_comm_assoc_idem", "C24_optional", "C24_list_is_hull", "C24_list_order_irrelevant", "C39_defaults", "C39_each_sets_its_own", "C39_extensional", "C39_commute_and_last_wins", "C14_decode_single", "C14_consumed_value", "C14_decode_single_id", "C15_refuted", "C15_never_undoubled", "C15_plain_partial", "C23_exact_or_error", "C23_decimal", "C26_line", "C26_display_never_panics", "C26_printed", "C26_number", "C26_is_ok", "C38_eq_ignores_span", "C38_order_total_and_consistent", "C38_borrow_consistent", "C01_statement_spans", "C01_statements_spans", "C01_slicing", "C04_none_means_error", "C05_statement", "C05_statements", "C05_error_free", "C06_statement_terminates", "C07_statements_terminate_partial", "C07_refuted", "C08_statement_panics_partial", "C08_statements_panics_partial", "C08_refuted", "C08_safe_inputs", "C11_statement_no_ice", "C11_statements_no_ice", "C12_statement_numbered", "C12_statements_numbered", "C13_statement_dollar", "C13_statements_dollar", "C29_statement_consumes_all", "C29_statements_consume_all", "C30_statement_block", "C30_statements_block", "C30_resumes", "C36_statement_names", "C36_statements_names", "C19_statement_same_ast", "C19_statements_same_ast", "C20_caps_lint_partial", "C20_caps_lint_statement_partial", "C20_only_lint_issues", "C20_refuted"], "tail": ""}
{"id": "m26", "failed": [["LexerFacts.v", "next_token_f_spec"]], "lost": ["C35_tokens_partition_source", "C35_ranges_increase", "C35_eof_forever", "C35_layout_is_read", "C18_insert_trivia", "C18_insert_white", "C14_lexed_as_one_token", "C40_lookup_of_name", "C40_names_distinct", "C40_table_has_no_duplicates", "C40_unknown_word", "C16_case_insensitive", "C16_every_case", "C17_quoted_is_not_a_keyword", "C17_only_quoted", "C03_statement_appends", "C03_statements_append", "C02_statement_segments", "C02_statements_segments", "C43_statement_independent", "C43_statements_independent", "C24_join_is_hull", "C24_join_comm_assoc_idem", "C24_optional", "C24_list_is_hull", "C24_list_order_irrelevant", "C39_defaults", "C39_each_sets_its_own", "C39_extensional", "C39_commute_and_last_wins", "C14_decode_single", "C14_consumed_value", "C14_decode_single_id", "C15_refuted", "C15_never_undoubled", "C15_plain_partial", "C23_exact_or_error", "C23_decimal", "C26_line", "C26_display_never_panics", "C26_printed", "C26_number", "C26_is_ok", "C38_eq_ignores_span", "C38_order_total_and_consistent", "C38_borrow_consistent", "C01_statement_spans", "C01_statements_spans", "C01_slicing", "C04_none_means_error", "C05_statement", "C05_statements", "C05_error_free", "C06_statement_terminates", "C07_statements_terminate_partial", "C07_refuted", "C08_statement_panics_partial", "C08_statements_panics_partial", "C08_refuted", "C08_safe_inputs", "C11_statement_no_ice", "C11_statements_no_ice", "C12_statement_numbered", "C12_statements_numbered", "C13_statement_dollar", "C13_statements_dollar", "C29_statement_consumes_all", "C29_statements_consume_all", "C30_statement_block", "C30_statements_block", "C30_resumes", "C36_statement_names", "C36_statements_names", "C19_statement_same_ast", "C19_statements_same_ast", "C20_caps_lint_partial", "C20_caps_lint_statement_partial", "C20_only_lint_issues", "C20_refuted"], "tail": ""}
{"id": "m27", "failed": [["PropsBasic.v", "C39_each_sets_its_own"]], "lost": ["C39_each_sets_its_own", "C39_extensional", "C39_commute_and_last_wins", "C14_decode_single", "C14_consumed_value", "C14_decode_single_id", "C15_refuted", "C15_never_undoubled", "C15_plain_partial", "C23_exact_or_error", "C23_decimal", "C26_line", "C26_display_never_panics", "C26_printed", "C26_number", "C26_is_ok", "C38_eq_ignores_span", "C38_order_total_and_consistent", "C38_borrow_consistent", "C01_statement_spans", "C01_statements_spans", "C01_slicing", "C04_none_means_error", "C05_statement", "C05_statements", "C05_error_free", "C06_statement_terminates", "C07_statements_terminate_partial", "C07_refuted", "C08_statement_panics_partial", "C08_statements_panics_partial", "C08_refuted", "C08_safe_inputs", "C11_statement_no_ice", "C11_statements_no_ice", "C12_statement_numbered", "C12_statements_numbered", "C13_statement_dollar", "C13_statements_dollar", "C29_statement_consumes_all", "C29_statements_consume_all", "C30_statement_block", "C30_statements_block", "C30_resumes", "C36_statement_names", "C36_statements_names", "C19_statement_same_ast", "C19_statements_same_ast", "C20_caps_lint_partial", "C20_caps_lint_statement_partial", "C20_only_lint_issues", "C20_refuted"], "tail": ""}
{"id": "m28", "failed": [["PropsLexer.v", "C40_table_has_no_duplicates"]], "lost": ["C40_table_has_no_duplicates", "C40_unknown_word", "C16_case_insensitive", "C16_every_case", "C17_quoted_is_not_a_keyword", "C17_only_quoted", "C03_statement_appends", "C03_statements_append", "C02_statement_segments", "C02_statements_segments", "C43_statement_independent", "C43_statements_independent", "C24_join_is_hull", "C24_join_comm_assoc_idem", "C24_optional", "C24_list_is_hull", "C24_list_order_irrelevant", "C39_defaults", "C39_each_sets_its_own", "C39_extensional", "C39_commute_and_last_wins", "C14_decode_single", "C14_consumed_value", "C14_decode_single_id", "C15_refuted", "C15_never_undoubled", "C15_plain_partial", "C23_exact_or_error", "C23_decimal", "C26_line", "C26_display_never_panics", "C26_printed", "C26_number", "C26_is_ok", "C38_eq_ignores_span", "C38_order_total_and_consistent", "C38_borrow_consistent", "C01_statement_spans", "C01_statements_spans", "C01_slicing", "C04_none_means_error", "C05_statement", "C05_statements", "C05_error_free", "C06_statement_terminates", "C07_statements_terminate_partial", "C07_refuted", "C08_statement_panics_partial", "C08_statements_panics_partial", "C08_refuted", "C08_safe_inputs", "C11_statement_no_ice", "C11_statements_no_ice", "C12_statement_numbered", "C12_statements_numbered", "C13_statement_dollar", "C13_statements_dollar", "C29_statement_consumes_all", "C29_statements_consume_all", "C30_statement_block", "C30_statements_block", "C30_resumes", "C36_statement_names", "C36_statements_names", "C19_statement_same_ast", "C19_statements_same_ast", "C20_caps_lint_partial", "C20_caps_lint_statement_partial", "C20_only_lint_issues", "C20_refuted"], "tail": ""}
{"id": "m29", "failed": [["SafeSelect.v", "parse_join_type_spec"], ["GrammarQuery.v", "pa_join"]], "lost": ["C01_statement_spans", "C01_statements_spans", "C01_slicing", "C04_none_means_error", "C05_statement", "C05_statements", "C05_error_free", "C06_statement_terminates", "C07_statements_terminate_partial", "C07_refuted", "C08_statement_panics_partial", "C08_statements_panics_partial", "C08_refuted", "C08_safe_inputs", "C11_statement_no_ice", "C11_statements_no_ice", "C12_statement_numbered", "C12_statements_numbered", "C13_statement_dollar", "C13_statements_dollar", "C29_statement_consumes_all", "C29_statements_consume_all", "C30_statement_block", "C30_statements_block", "C30_resumes", "C36_statement_names", "C36_statements_names", "C19_statement_same_ast", "C19_statements_same_ast", "C20_caps_lint_partial", "C20_caps_lint_statement_partial", "C20_only_lint_issues", "C20_refuted", "C09_query_source", "C09_query_unique", "C34_count", "C34_comma", "C34_offset", "C42_components", "C42_source", "C41_union_partial", "C41_refuted", "C06_budget_independent", "C07_budget_independent", "C31_script", "C31_correct_script", "C44_with_delimiter_partial", "C44_refuted", "C27_statement_reported_partial", "C27_statements_reported_partial", "C27_statement_not_reported", "C27_statements_not_reported", "C27_update_returning", "C27_with", "C27_create_type", "C27_insert_on", "C27_backtick", "C27_opclass", "C27_refuted", "C28_statement_reserved", "C28_statements_reserved", "C28_statement_only_reserved", "C28_statements_only_reserved", "C28_consume_identifier", "C28_token_identifier", "C33_statement_features", "C33_statements_features", "C33_statement_with", "C33_statements_with", "C33_top", "C33_top_in_script", "C22_mode_partial", "C22_error_free", "C22_refuted", "C37_recover", "C37_balanced", "C37_recovered", "C37_recovered_trailing", "C37_fails", "C37_reachable", "C37_list", "C21_statement_only", "C21_statements_only", "C21_statement_capitals_partial", "C21_statements_capitals_partial", "C21_consume_keyword", "C21_skip_keyword", "C21_refuted", "C45_statement_leaves", "C45_statements_leaves", "C45_statement_tags", "C45_statements_tags", "C45_statement_values", "C45_statements_values", "C45_statement_names", "C45_statements_names", "C32_statement_partial", "C32_statements_partial", "C32_refuted", "C25_statement_partial", "C25_expression_partial", "C25_parts_partial", "C25_refuted"], "tail": ""}
{"id": "m30", "failed": [["SafeSelect.v", "parse_join_type_spec"], ["GrammarQuery.v", "pa_join"]], "lost": ["C01_statement_spans", "C01_statements_spans", "C01_slicing", "C04_none_means_error", "C05_statement", "C05_statements", "C05_error_free", "C06_statement_terminates", "C07_statements_terminate_partial", "C07_refuted", "C08_statement_panics_partial", "C08_statements_panics_partial", "C08_refuted", "C08_safe_inputs", "C11_statement_no_ice", "C11_statements_no_ice", "C12_statement_numbered", "C12_statements_numbered", "C13_statement_dollar", "C13_statements_dollar", "C29_statement_consumes_all", "C29_statements_consume_all", "C30_statement_block", "C30_statements_block", "C30_resumes", "C36_statement_names", "C36_statements_names", "C19_statement_same_ast", "C19_statements_same_ast", "C20_caps_lint_partial", "C20_caps_lint_statement_partial", "C20_only_lint_issues", "C20_refuted", "C09_query_source", "C09_query_unique", "C34_count", "C34_comma", "C34_offset", "C42_components", "C42_source", "C41_union_partial", "C41_refuted", "C06_budget_independent", "C07_budget_independent", "C31_script", "C31_correct_script", "C44_with_delimiter_partial", "C44_refuted", "C27_statement_reported_partial", "C27_statements_reported_partial", "C27_statement_not_reported", "C27_statements_not_reported", "C27_update_returning", "C27_with", "C27_create_type", "C27_insert_on", "C27_backtick", "C27_opclass", "C27_refuted", "C28_statement_reserved", "C28_statements_reserved", "C28_statement_only_reserved", "C28_statements_only_reserved", "C28_consume_identifier", "C28_token_identifier", "C33_statement_features", "C33_statements_features", "C33_statement_with", "C33_statements_with", "C33_top", "C33_top_in_script", "C22_mode_partial", "C22_error_free", "C22_refuted", "C37_recover", "C37_balanced", "C37_recovered", "C37_recovered_trailing", "C37_fails", "C37_reachable", "C37_list", "C21_statement_only", "C21_statements_only", "C21_statement_capitals_partial", "C21_statements_capitals_partial", "C21_consume_keyword", "C21_skip_keyword", "C21_refuted", "C45_statement_leaves", "C45_statements_leaves", "C45_statement_tags", "C45_statements_tags", "C45_statement_values", "C45_statements_values", "C45_statement_names", "C45_statements_names", "C32_statement_partial", "C32_statements_partial", "C32_refuted", "C25_statement_partial", "C25_expression_partial", "C25_parts_partial", "C25_refuted"], "tail": ""}
{"id": "m31", "failed": [["GrammarQuery.v", "c_limit_comma"]], "lost": ["C09_query_source", "C09_query_unique", "C34_count", "C34_comma", "C34_offset", "C42_components", "C42_source", "C41_union_partial", "C41_refuted", "C06_budget_independent", "C07_budget_independent", "C31_script", "C31_correct_script", "C44_with_delimiter_partial", "C44_refuted"], "tail": ""}
{"id": "m32", "failed": [["GrammarQuery.v", "c_tables"]], "lost": ["C09_query_source", "C09_query_unique", "C34_count", "C34_comma", "C34_offset", "C42_components", "C42_source", "C41_union_partial", "C41_refuted", "C06_budget_independent", "C07_budget_independent", "C31_script", "C31_correct_script", "C44_with_delimiter_partial", "C44_refuted"], "tail": ""}
{"id": "m33", "failed": [["SafeSelect.v", "parse_order_elements_spec"], ["GrammarQuery.v", "pa_order"]], "lost": ["C01_statement_spans", "C01_statements_spans", "C01_slicing", "C04_none_means_error", "C05_statement", "C05_statements", "C05_error_free", "C06_statement_terminates", "C07_statements_terminate_partial", "C07_refuted", "C08_statement_panics_partial", "C08_statements_panics_partial", "C08_refuted", "C08_safe_inputs", "C11_statement_no_ice", "C11_statements_no_ice", "C12_statement_numbered", "C12_statements_numbered", "C13_statement_dollar", "C13_statements_dollar", "C29_statement_consumes_all", "C29_statements_consume_all", "C30_statement_block", "C30_statements_block", "C30_resumes", "C36_statement_names", "C36_statements_names", "C19_statement_same_ast", "C19_statements_same_ast", "C20_caps_lint_partial", "C20_caps_lint_statement_partial", "C20_only_lint_issues", "C20_refuted", "C09_query_source", "C09_query_unique", "C34_count", "C34_comma", "C34_offset", "C42_components", "C42_source", "C41_union_partial", "C41_refuted", "C06_budget_independent", "C07_budget_independent", "C31_script", "C31_correct_script", "C44_with_delimiter_partial", "C44_refuted", "C27_statement_reported_partial", "C27_statements_reported_partial", "C27_statement_not_reported", "C27_statements_not_reported", "C27_update_returning", "C27_with", "C27_create_type", "C27_insert_on", "C27_backtick", "C27_opclass", "C27_refuted", "C28_statement_reserved", "C28_statements_reserved", "C28_statement_only_reserved", "C28_statements_only_reserved", "C28_consume_identifier", "C28_token_identifier", "C33_statement_features", "C33_statements_features", "C33_statement_with", "C33_statements_with", "C33_top", "C33_top_in_script", "C22_mode_partial", "C22_error_free", "C22_refuted", "C37_recover", "C37_balanced", "C37_recovered", "C37_recovered_trailing", "C37_fails", "C37_reachable", "C37_list", "C21_statement_only", "C21_statements_only", "C21_statement_capitals_partial", "C21_statements_capitals_partial", "C21_consume_keyword", "C21_skip_keyword", "C21_refuted", "C45_statement_leaves", "C45_statements_leaves", "C45_statement_tags", "C45_statements_tags", "C45_statement_values", "C45_statements_values", "C45_statement_names", "C45_statements_names", "C32_statement_partial", "C32_statements_partial", "C32_refuted", "C25_statement_partial", "C25_expression_partial", "C25_parts_partial", "C25_refuted"], "tail": ""}
{"id": "m34", "failed": [["GrammarQuery.v", "pa_cond"]], "lost": ["C09_query_source", "C09_query_unique", "C34_count", "C34_comma", "C34_offset", "C42_components", "C42_source", "C41_union_partial", "C41_refuted", "C06_budget_independent", "C07_budget_independent", "C31_script", "C31_correct_script", "C44_with_delimiter_partial", "C44_refuted"], "tail": ""}
{"id": "m35", "failed": [["SafeSelect.v", "parse_locking_spec"]], "lost": ["C01_statement_spans", "C01_statements_spans", "C01_slicing", "C04_none_means_error", "C05_statement", "C05_statements", "C05_error_free", "C06_statement_terminates", "C07_statements_terminate_partial", "C07_refuted", "C08_statement_panics_partial", "C08_statements_panics_partial", "C08_refuted", "C08_safe_inputs", "C11_statement_no_ice", "C11_statements_no_ice", "C12_statement_numbered", "C12_statements_numbered", "C13_statement_dollar", "C13_statements_dollar", "C29_statement_consumes_all", "C29_statements_consume_all", "C30_statement_block", "C30_statements_block", "C30_resumes", "C36_statement_names", "C36_statements_names", "C19_statement_same_ast", "C19_statements_same_ast", "C20_caps_lint_partial", "C20_caps_lint_statement_partial", "C20_only_lint_issues", "C20_refuted", "C06_budget_independent", "C07_budget_independent", "C31_script", "C31_correct_script", "C44_with_delimiter_partial", "C44_refuted", "C27_statement_reported_partial", "C27_statements_reported_partial", "C27_statement_not_reported", "C27_statements_not_reported", "C27_update_returning", "C27_with", "C27_create_type", "C27_insert_on", "C27_backtick", "C27_opclass", "C27_refuted", "C28_statement_reserved", "C28_statements_reserved", "C28_statement_only_reserved", "C28_statements_only_reserved", "C28_consume_identifier", "C28_token_identifier", "C33_statement_features", "C33_statements_features", "C33_statement_with", "C33_statements_with", "C33_top", "C33_top_in_script", "C22_mode_partial", "C22_error_free", "C22_refuted", "C37_recover", "C37_balanced", "C37_recovered", "C37_recovered_trailing", "C37_fails", "C37_reachable", "C37_list", "C21_statement_only", "C21_statements_only", "C21_statement_capitals_partial", "C21_statements_capitals_partial", "C21_consume_keyword", "C21_skip_keyword", "C21_refuted", "C45_statement_leaves", "C45_statements_leaves", "C45_statement_tags", "C45_statements_tags", "C45_statement_values", "C45_statements_values", "C45_statement_names", "C45_statements_names", "C32_statement_partial", "C32_statements_partial", "C32_refuted", "C25_statement_partial", "C25_expression_partial", "C25_parts_partial", "C25_refuted"], "tail": ""}
{"id": "m36", "failed": [["SafeDml.v", "parse_fk_on_wp"]], "lost": ["C01_statement_spans", "C01_statements_spans", "C01_slicing", "C04_none_means_error", "C05_statement", "C05_statements", "C05_error_free", "C06_statement_terminates", "C07_statements_terminate_partial", "C07_refuted", "C08_statement_panics_partial", "C08_statements_panics_partial", "C08_refuted", "C08_safe_inputs", "C11_statement_no_ice", "C11_statements_no_ice", "C12_statement_numbered", "C12_statements_numbered", "C13_statement_dollar", "C13_statements_dollar", "C29_statement_consumes_all", "C29_statements_consume_all", "C30_statement_block", "C30_statements_block", "C30_resumes", "C36_statement_names", "C36_statements_names", "C19_statement_same_ast", "C19_statements_same_ast", "C20_caps_lint_partial", "C20_caps_lint_statement_partial", "C20_only_lint_issues", "C20_refuted", "C06_budget_independent", "C07_budget_independent", "C31_script", "C31_correct_script", "C44_with_delimiter_partial", "C44_refuted", "C27_statement_reported_partial", "C27_statements_reported_partial", "C27_statement_not_reported", "C27_statements_not_reported", "C27_update_returning", "C27_with", "C27_create_type", "C27_insert_on", "C27_backtick", "C27_opclass", "C27_refuted", "C28_statement_reserved", "C28_statements_reserved", "C28_statement_only_reserved", "C28_statements_only_reserved", "C28_consume_identifier", "C28_token_identifier", "C33_statement_features", "C33_statements_features", "C33_statement_with", "C33_statements_with", "C33_top", "C33_top_in_script", "C22_mode_partial", "C22_error_free", "C22_refuted", "C37_recover", "C37_balanced", "C37_recovered", "C37_recovered_trailing", "C37_fails", "C37_reachable", "C37_list", "C21_statement_only", "C21_statements_only", "C21_statement_capitals_partial", "C21_statements_capitals_partial", "C21_consume_keyword", "C21_skip_keyword", "C21_refuted", "C45_statement_leaves", "C45_statements_leaves", "C45_statement_tags", "C45_statements_tags", "C45_statement_values", "C45_statements_values", "C45_statement_names", "C45_statements_names", "C32_statement_partial", "C32_statements_partial", "C32_refuted", "C25_statement_partial", "C25_expression_partial", "C25_parts_partial", "C25_refuted"], "tail": ""}
{"id": "m37", "failed": [["SafeDml.v", "parse_fk_on_wp"]], "lost": ["C01_statement_spans", "C01_statements_spans", "C01_slicing", "C04_none_means_error", "C05_statement", "C05_statements", "C05_error_free", "C06_statement_terminates", "C07_statements_terminate_partial", "C07_refuted", "C08_statement_panics_partial", "C08_statements_panics_partial", "C08_refuted", "C08_safe_inputs", "C11_statement_no_ice", "C11_statements_no_ice", "C12_statement_numbered", "C12_statements_numbered", "C13_statement_dollar", "C13_statements_dollar", "C29_statement_consumes_all", "C29_statements_consume_all", "C30_statement_block", "C30_statements_block", "C30_resumes", "C36_statement_names", "C36_statements_names", "C19_statement_same_ast", "C19_statements_same_ast", "C20_caps_lint_partial", "C20_caps_lint_statement_partial", "C20_only_lint_issues", "C20_refuted", "C06_budget_independent", "C07_budget_independent", "C31_script", "C31_correct_script", "C44_with_delimiter_partial", "C44_refuted", "C27_statement_reported_partial", "C27_statements_reported_partial", "C27_statement_not_reported", "C27_statements_not_reported", "C27_update_returning", "C27_with", "C27_create_type", "C27_insert_on", "C27_backtick", "C27_opclass", "C27_refuted", "C28_statement_reserved", "C28_statements_reserved", "C28_statement_only_reserved", "C28_statements_only_reserved", "C28_consume_identifier", "C28_token_identifier", "C33_statement_features", "C33_statements_features", "C33_statement_with", "C33_statements_with", "C33_top", "C33_top_in_script", "C22_mode_partial", "C22_error_free", "C22_refuted", "C37_recover", "C37_balanced", "C37_recovered", "C37_recovered_trailing", "C37_fails", "C37_reachable", "C37_list", "C21_statement_only", "C21_statements_only", "C21_statement_capitals_partial", "C21_statements_capitals_partial", "C21_consume_keyword", "C21_skip_keyword", "C21_refuted", "C45_statement_leaves", "C45_statements_leaves", "C45_statement_tags", "C45_statements_tags", "C45_statement_values", "C45_statements_values", "C45_statement_names", "C45_statements_names", "C32_statement_partial", "C32_statements_partial", "C32_refuted", "C25_statement_partial", "C25_expression_partial", "C25_parts_partial", "C25_refuted"], "tail": ""}
{"id": "m38", "failed": [["SafeDml.v", "parse_add_index_spec"]], "lost": ["C01_statement_spans", "C01_statements_spans", "C01_slicing", "C04_none_means_error", "C05_statement", "C05_statements", "C05_error_free", "C06_statement_terminates", "C07_statements_terminate_partial", "C07_refuted", "C08_statement_panics_partial", "C08_statements_panics_partial", "C08_refuted", "C08_safe_inputs", "C11_statement_no_ice", "C11_statements_no_ice", "C12_statement_numbered", "C12_statements_numbered", "C13_statement_dollar", "C13_statements_dollar", "C29_statement_consumes_all", "C29_statements_consume_all", "C30_statement_block", "C30_statements_block", "C30_resumes", "C36_statement_names", "C36_statements_names", "C19_statement_same_ast", "C19_statements_same_ast", "C20_caps_lint_partial", "C20_caps_lint_statement_partial", "C20_only_lint_issues", "C20_refuted", "C06_budget_independent", "C07_budget_independent", "C31_script", "C31_correct_script", "C44_with_delimiter_partial", "C44_refuted", "C27_statement_reported_partial", "C27_statements_reported_partial", "C27_statement_not_reported", "C27_statements_not_reported", "C27_update_returning", "C27_with", "C27_create_type", "C27_insert_on", "C27_backtick", "C27_opclass", "C27_refuted", "C28_statement_reserved", "C28_statements_reserved", "C28_statement_only_reserved", "C28_statements_only_reserved", "C28_consume_identifier", "C28_token_identifier", "C33_statement_features", "C33_statements_features", "C33_statement_with", "C33_statements_with", "C33_top", "C33_top_in_script", "C22_mode_partial", "C22_error_free", "C22_refuted", "C37_recover", "C37_balanced", "C37_recovered", "C37_recovered_trailing", "C37_fails", "C37_reachable", "C37_list", "C21_statement_only", "C21_statements_only", "C21_statement_capitals_partial", "C21_statements_capitals_partial", "C21_consume_keyword", "C21_skip_keyword", "C21_refuted", "C45_statement_leaves", "C45_statements_leaves", "C45_statement_tags", "C45_statements_tags", "C45_statement_values", "C45_statements_values", "C45_statement_names", "C45_statements_names", "C32_statement_partial", "C32_statements_partial", "C32_refuted", "C25_statement_partial", "C25_expression_partial", "C25_parts_partial", "C25_refuted"], "tail": ""}
{"id": "m39", "failed": [["SafeDml.v", "parse_index_type_spec"]], "lost": ["C01_statement_spans", "C01_statements_spans", "C01_slicing", "C04_none_means_error", "C05_statement", "C05_statements", "C05_error_free", "C06_statement_terminates", "C07_statements_terminate_partial", "C07_refuted", "C08_statement_panics_partial", "C08_statements_panics_partial", "C08_refuted", "C08_safe_inputs", "C11_statement_no_ice", "C11_statements_no_ice", "C12_statement_numbered", "C12_statements_numbered", "C13_statement_dollar", "C13_statements_dollar", "C29_statement_consumes_all", "C29_statements_consume_all", "C30_statement_block", "C30_statements_block", "C30_resumes", "C36_statement_names", "C36_statements_names", "C19_statement_same_ast", "C19_statements_same_ast", "C20_caps_lint_partial", "C20_caps_lint_statement_partial", "C20_only_lint_issues", "C20_refuted", "C06_budget_independent", "C07_budget_independent", "C31_script", "C31_correct_script", "C44_with_delimiter_partial", "C44_refuted", "C27_statement_reported_partial", "C27_statements_reported_partial", "C27_statement_not_reported", "C27_statements_not_reported", "C27_update_returning", "C27_with", "C27_create_type", "C27_insert_on", "C27_backtick", "C27_opclass", "C27_refuted", "C28_statement_reserved", "C28_statements_reserved", "C28_statement_only_reserved", "C28_statements_only_reserved", "C28_consume_identifier", "C28_token_identifier", "C33_statement_features", "C33_statements_features", "C33_statement_with", "C33_statements_with", "C33_top", "C33_top_in_script", "C22_mode_partial", "C22_error_free", "C22_refuted", "C37_recover", "C37_balanced", "C37_recovered", "C37_recovered_trailing", "C37_fails", "C37_reachable", "C37_list", "C21_statement_only", "C21_statements_only", "C21_statement_capitals_partial", "C21_statements_capitals_partial", "C21_consume_keyword", "C21_skip_keyword", "C21_refuted", "C45_statement_leaves", "C45_statements_leaves", "C45_statement_tags", "C45_statements_tags", "C45_statement_values", "C45_statements_values", "C45_statement_names", "C45_statements_names", "C32_statement_partial", "C32_statements_partial", "C32_refuted", "C25_statement_partial", "C25_expression_partial", "C25_parts_partial", "C25_refuted"], "tail": ""}
{"id": "m40", "failed": [["SafeDml.v", "parse_fk_on_wp"]], "lost": ["C01_statement_spans", "C01_statements_spans", "C01_slicing", "C04_none_means_error", "C05_statement", "C05_statements", "C05_error_free", "C06_statement_terminates", "C07_statements_terminate_partial", "C07_refuted", "C08_statement_panics_partial", "C08_statements_panics_partial", "C08_refuted", "C08_safe_inputs", "C11_statement_no_ice", "C11_statements_no_ice", "C12_statement_numbered", "C12_statements_numbered", "C13_statement_dollar", "C13_statements_dollar", "C29_statement_consumes_all", "C29_statements_consume_all", "C30_statement_block", "C30_statements_block", "C30_resumes", "C36_statement_names", "C36_statements_names", "C19_statement_same_ast", "C19_statements_same_ast", "C20_caps_lint_partial", "C20_caps_lint_statement_partial", "C20_only_lint_issues", "C20_refuted", "C06_budget_independent", "C07_budget_independent", "C31_script", "C31_correct_script", "C44_with_delimiter_partial", "C44_refuted", "C27_statement_reported_partial", "C27_statements_reported_partial", "C27_statement_not_reported", "C27_statements_not_reported", "C27_update_returning", "C27_with", "C27_create_type", "C27_insert_on", "C27_backtick", "C27_opclass", "C27_refuted", "C28_statement_reserved", "C28_statements_reserved", "C28_statement_only_reserved", "C28_statements_only_reserved", "C28_consume_identifier", "C28_token_identifier", "C33_statement_features", "C33_statements_features", "C33_statement_with", "C33_statements_with", "C33_top", "C33_top_in_script", "C22_mode_partial", "C22_error_free", "C22_refuted", "C37_recover", "C37_balanced", "C37_recovered", "C37_recovered_trailing", "C37_fails", "C37_reachable", "C37_list", "C21_statement_only", "C21_statements_only", "C21_statement_capitals_partial", "C21_statements_capitals_partial", "C21_consume_keyword", "C21_skip_keyword", "C21_refuted", "C45_statement_leaves", "C45_statements_leaves", "C45_statement_tags", "C45_statements_tags", "C45_statement_values", "C45_statements_values", "C45_statement_names", "C45_statements_names", "C32_statement_partial", "C32_statements_partial", "C32_refuted", "C25_statement_partial", "C25_expression_partial", "C25_parts_partial", "C25_refuted"], "tail": ""}
{"id": "m41", "failed": [["PrecSpec.v", "priority_ok"]], "lost": ["C09_result_is_grouped", "C09_grouped_is_result", "C09_grouping_unique", "C10_refuted", "C10_refuted_source", "C10_parentheses_partial", "C09_query_source", "C09_query_unique", "C34_count", "C34_comma", "C34_offset", "C42_components", "C42_source", "C41_union_partial", "C41_refuted", "C06_budget_independent", "C07_budget_independent", "C31_script", "C31_correct_script", "C44_with_delimiter_partial", "C44_refuted"], "tail": ""}
{"id": "m42", "failed": [["PrecSpec.v", "priority_ok"]], "lost": ["C09_result_is_grouped", "C09_grouped_is_result", "C09_grouping_unique", "C10_refuted", "C10_refuted_source", "C10_parentheses_partial", "C09_query_source", "C09_query_unique", "C34_count", "C34_comma", "C34_offset", "C42_components", "C42_source", "C41_union_partial", "C41_refuted", "C06_budget_independent", "C07_budget_independent", "C31_script", "C31_correct_script", "C44_with_delimiter_partial", "C44_refuted"], "tail": ""}
{"id": "m43", "failed": [["PrecSpec.v", "reduce_loop_tree"], ["SafeExpr.v", "reduce_loop_ok"]], "lost": ["C01_statement_spans", "C01_statements_spans", "C01_slicing", "C04_none_means_error", "C05_statement", "C05_statements", "C05_error_free", "C06_statement_terminates", "C07_statements_terminate_partial", "C07_refuted", "C08_statement_panics_partial", "C08_statements_panics_partial", "C08_refuted", "C08_safe_inputs", "C11_statement_no_ice", "C11_statements_no_ice", "C12_statement_numbered", "C12_statements_numbered", "C13_statement_dollar", "C13_statements_dollar", "C29_statement_consumes_all", "C29_statements_consume_all", "C30_statement_block", "C30_statements_block", "C30_resumes", "C36_statement_names", "C36_statements_names", "C19_statement_same_ast", "C19_statements_same_ast", "C20_caps_lint_partial", "C20_caps_lint_statement_partial", "C20_only_lint_issues", "C20_refuted", "C09_result_is_grouped", "C09_grouped_is_result", "C09_grouping_unique", "C10_refuted", "C10_refuted_source", "C10_parentheses_partial", "C09_query_source", "C09_query_unique", "C34_count", "C34_comma", "C34_offset", "C42_components", "C42_source", "C41_union_partial", "C41_refuted", "C06_budget_independent", "C07_budget_independent", "C31_script", "C31_correct_script", "C44_with_delimiter_partial", "C44_refuted", "C27_statement_reported_partial", "C27_statements_reported_partial", "C27_statement_not_reported", "C27_statements_not_reported", "C27_update_returning", "C27_with", "C27_create_type", "C27_insert_on", "C27_backtick", "C27_opclass", "C27_refuted", "C28_statement_reserved", "C28_statements_reserved", "C28_statement_only_reserved", "C28_statements_only_reserved", "C28_consume_identifier", "C28_token_identifier", "C33_statement_features", "C33_statements_features", "C33_statement_with", "C33_statements_with", "C33_top", "C33_top_in_script", "C22_mode_partial", "C22_error_free", "C22_refuted", "C37_recover", "C37_balanced", "C37_recovered", "C37_recovered_trailing", "C37_fails", "C37_reachable", "C37_list", "C21_statement_only", "C21_statements_only", "C21_statement_capitals_partial", "C21_statements_capitals_partial", "C21_consume_keyword", "C21_skip_keyword", "C21_refuted", "C45_statement_leaves", "C45_statements_leaves", "C45_statement_tags", "C45_statements_tags", "C45_statement_values", "C45_statements_values", "C45_statement_names", "C45_statements_names", "C32_statement_partial", "C32_statements_partial", "C32_refuted", "C25_statement_partial", "C25_expression_partial", "C25_parts_partial", "C25_refuted"], "tail": ""}
{"id": "m44", "failed": [["PrecSpec.v", "reduce_loop_tree"], ["SafeExpr.v", "reduce_loop_ok"]], "lost": ["C01_statement_spans", "C01_statements_spans", "C01_slicing", "C04_none_means_error", "C05_statement", "C05_statements", "C05_error_free", "C06_statement_terminates", "C07_statements_terminate_partial", "C07_refuted", "C08_statement_panics_partial", "C08_statements_panics_partial", "C08_refuted", "C08_safe_inputs", "C11_statement_no_ice", "C11_statements_no_ice", "C12_statement_numbered", "C12_statements_numbered", "C13_statement_dollar", "C13_statements_dollar", "C29_statement_consumes_all", "C29_statements_consume_all", "C30_statement_block", "C30_statements_block", "C30_resumes", "C36_statement_names", "C36_statements_names", "C19_statement_same_ast", "C19_statements_same_ast", "C20_caps_lint_partial", "C20_caps_lint_statement_partial", "C20_only_lint_issues", "C20_refuted", "C09_result_is_grouped", "C09_grouped_is_result", "C09_grouping_unique", "C10_refuted", "C10_refuted_source", "C10_parentheses_partial", "C09_query_source", "C09_query_unique", "C34_count", "C34_comma", "C34_offset", "C42_components", "C42_source", "C41_union_partial", "C41_refuted", "C06_budget_independent", "C07_budget_independent", "C31_script", "C31_correct_script", "C44_with_delimiter_partial", "C44_refuted", "C27_statement_reported_partial", "C27_statements_reported_partial", "C27_statement_not_reported", "C27_statements_not_reported", "C27_update_returning", "C27_with", "C27_create_type", "C27_insert_on", "C27_backtick", "C27_opclass", "C27_refuted", "C28_statement_reserved", "C28_statements_reserved", "C28_statement_only_reserved", "C28_statements_only_reserved", "C28_consume_identifier", "C28_token_identifier", "C33_statement_features", "C33_statements_features", "C33_statement_with", "C33_statements_with", "C33_top", "C33_top_in_script", "C22_mode_partial", "C22_error_free", "C22_refuted", "C37_recover", "C37_balanced", "C37_recovered", "C37_recovered_trailing", "C37_fails", "C37_reachable", "C37_list", "C21_statement_only", "C21_statements_only", "C21_statement_capitals_partial", "C21_statements_capitals_partial", "C21_consume_keyword", "C21_skip_keyword", "C21_refuted", "C45_statement_leaves", "C45_statements_leaves", "C45_statement_tags", "C45_statements_tags", "C45_statement_values", "C45_statements_values", "C45_statement_names", "C45_statements_names", "C32_statement_partial", "C32_statements_partial", "C32_refuted", "C25_statement_partial", "C25_expression_partial", "C25_parts_partial", "C25_refuted"], "tail": ""}
{"id": "m45", "failed": [["SafeExpr.v", "function_of_spec"]], "lost": ["C01_statement_spans", "C01_statements_spans", "C01_slicing", "C04_none_means_error", "C05_statement", "C05_statements", "C05_error_free", "C06_statement_terminates", "C07_statements_terminate_partial", "C07_refuted", "C08_statement_panics_partial", "C08_statements_panics_partial", "C08_refuted", "C08_safe_inputs", "C11_statement_no_ice", "C11_statements_no_ice", "C12_statement_numbered", "C12_statements_numbered", "C13_statement_dollar", "C13_statements_dollar", "C29_statement_consumes_all", "C29_statements_consume_all", "C30_statement_block", "C30_statements_block", "C30_resumes", "C36_statement_names", "C36_statements_names", "C19_statement_same_ast", "C19_statements_same_ast", "C20_caps_lint_partial", "C20_caps_lint_statement_partial", "C20_only_lint_issues", "C20_refuted", "C06_budget_independent", "C07_budget_independent", "C31_script", "C31_correct_script", "C44_with_delimiter_partial", "C44_refuted", "C27_statement_reported_partial", "C27_statements_reported_partial", "C27_statement_not_reported", "C27_statements_not_reported", "C27_update_returning", "C27_with", "C27_create_type", "C27_insert_on", "C27_backtick", "C27_opclass", "C27_refuted", "C28_statement_reserved", "C28_statements_reserved", "C28_statement_only_reserved", "C28_statements_only_reserved", "C28_consume_identifier", "C28_token_identifier", "C33_statement_features", "C33_statements_features", "C33_statement_with", "C33_statements_with", "C33_top", "C33_top_in_script", "C22_mode_partial", "C22_error_free", "C22_refuted", "C37_recover", "C37_balanced", "C37_recovered", "C37_recovered_trailing", "C37_fails", "C37_reachable", "C37_list", "C21_statement_only", "C21_statements_only", "C21_statement_capitals_partial", "C21_statements_capitals_partial", "C21_consume_keyword", "C21_skip_keyword", "C21_refuted", "C45_statement_leaves", "C45_statements_leaves", "C45_statement_tags", "C45_statements_tags", "C45_statement_values", "C45_statements_values", "C45_statement_names", "C45_statements_names", "C32_statement_partial", "C32_statements_partial", "C32_refuted", "C25_statement_partial", "C25_expression_partial", "C25_parts_partial", "C25_refuted"], "tail": ""}
{"id": "m46", "failed": [["View.v", "pa_name"], ["SafeTac.v", "consume_plain_identifier_spec"]], "lost": ["C01_statement_spans", "C01_statements_spans", "C01_slicing", "C04_none_means_error", "C05_statement", "C05_statements", "C05_error_free", "C06_statement_terminates", "C07_statements_terminate_partial", "C07_refuted", "C08_statement_panics_partial", "C08_statements_panics_partial", "C08_refuted", "C08_safe_inputs", "C11_statement_no_ice", "C11_statements_no_ice", "C12_statement_numbered", "C12_statements_numbered", "C13_statement_dollar", "C13_statements_dollar", "C29_statement_consumes_all", "C29_statements_consume_all", "C30_statement_block", "C30_statements_block", "C30_resumes", "C36_statement_names", "C36_statements_names", "C19_statement_same_ast", "C19_statements_same_ast", "C20_caps_lint_partial", "C20_caps_lint_statement_partial", "C20_only_lint_issues", "C20_refuted", "C09_query_source", "C09_query_unique", "C34_count", "C34_comma", "C34_offset", "C42_components", "C42_source", "C41_union_partial", "C41_refuted", "C06_budget_independent", "C07_budget_independent", "C31_script", "C31_correct_script", "C44_with_delimiter_partial", "C44_refuted", "C27_statement_reported_partial", "C27_statements_reported_partial", "C27_statement_not_reported", "C27_statements_not_reported", "C27_update_returning", "C27_with", "C27_create_type", "C27_insert_on", "C27_backtick", "C27_opclass", "C27_refuted", "C28_statement_reserved", "C28_statements_reserved", "C28_statement_only_reserved", "C28_statements_only_reserved", "C28_consume_identifier", "C28_token_identifier", "C33_statement_features", "C33_statements_features", "C33_statement_with", "C33_statements_with", "C33_top", "C33_top_in_script", "C22_mode_partial", "C22_error_free", "C22_refuted", "C37_recover", "C37_balanced", "C37_recovered", "C37_recovered_trailing", "C37_fails", "C37_reachable", "C37_list", "C21_statement_only", "C21_statements_only", "C21_statement_capitals_partial", "C21_statements_capitals_partial", "C21_consume_keyword", "C21_skip_keyword", "C21_refuted", "C45_statement_leaves", "C45_statements_leaves", "C45_statement_tags", "C45_statements_tags", "C45_statement_values", "C45_statements_values", "C45_statement_names", "C45_statements_names", "C32_statement_partial", "C32_statements_partial", "C32_refuted", "C25_statement_partial", "C25_expression_partial", "C25_parts_partial", "C25_refuted"], "tail": ""}
{"id": "m47", "failed": [["Generic.v", "exec_grown"], ["View.v", "pa_lint_caps"]], "lost": ["C03_statement_appends", "C03_statements_append", "C02_statement_segments", "C02_statements_segments", "C43_statement_independent", "C43_statements_independent", "C24_join_is_hull", "C24_join_comm_assoc_idem", "C24_optional", "C24_list_is_hull", "C24_list_order_irrelevant", "C39_defaults", "C39_each_sets_its_own", "C39_extensional", "C39_commute_and_last_wins", "C14_decode_single", "C14_consumed_value", "C14_decode_single_id", "C15_refuted", "C15_never_undoubled", "C15_plain_partial", "C23_exact_or_error", "C23_decimal", "C26_line", "C26_display_never_panics", "C26_printed", "C26_number", "C26_is_ok", "C38_eq_ignores_span", "C38_order_total_and_consistent", "C38_borrow_consistent", "C01_statement_spans", "C01_statements_spans", "C01_slicing", "C04_none_means_error", "C05_statement", "C05_statements", "C05_error_free", "C06_statement_terminates", "C07_statements_terminate_partial", "C07_refuted", "C08_statement_panics_partial", "C08_statements_panics_partial", "C08_refuted", "C08_safe_inputs", "C11_statement_no_ice", "C11_statements_no_ice", "C12_statement_numbered", "C12_statements_numbered", "C13_statement_dollar", "C13_statements_dollar", "C29_statement_consumes_all", "C29_statements_consume_all", "C30_statement_block", "C30_statements_block", "C30_resumes", "C36_statement_names", "C36_statements_names", "C19_statement_same_ast", "C19_statements_same_ast", "C20_caps_lint_partial", "C20_caps_lint_statement_partial", "C20_only_lint_issues", "C20_refuted", "C09_query_source", "C09_query_unique", "C34_count", "C34_comma", "C34_offset", "C42_components", "C42_source", "C41_union_partial", "C41_refuted", "C06_budget_independent", "C07_budget_independent", "C31_script", "C31_correct_script", "C44_with_delimiter_partial", "C44_refuted", "C27_statement_reported_partial", "C27_statements_reported_partial", "C27_statement_not_reported", "C27_statements_not_reported", "C27_update_returning", "C27_with", "C27_create_type", "C27_insert_on", "C27_backtick", "C27_opclass", "C27_refuted", "C28_statement_reserved", "C28_statements_reserved", "C28_statement_only_reserved", "C28_statements_only_reserved", "C28_consume_identifier", "C28_token_identifier", "C33_statement_features", "C33_statements_features", "C33_statement_with", "C33_statements_with", "C33_top", "C33_top_in_script", "C22_mode_partial", "C22_error_free", "C22_refuted", "C37_recover", "C37_balanced", "C37_recovered", "C37_recovered_trailing", "C37_fails", "C37_reachable", "C37_list", "C21_statement_only", "C21_statements_only", "C21_statement_capitals_partial", "C21_statements_capitals_partial", "C21_consume_keyword", "C21_skip_keyword", "C21_refuted", "C45_statement_leaves", "C45_statements_leaves", "C45_statement_tags", "C45_statements_tags", "C45_statement_values", "C45_statements_values", "C45_statement_names", "C45_statements_names", "C32_statement_partial", "C32_statements_partial", "C32_refuted", "C25_statement_partial", "C25_expression_partial", "C25_parts_partial", "C25_refuted"], "tail": ""}
{"id": "m48", "failed": [["SafeTac.v", "consume_keywords_from_spec"], ["GrammarStmt.v", "stmt_reads"]], "lost": ["C01_statement_spans", "C01_statements_spans", "C01_slicing", "C04_none_means_error", "C05_statement", "C05_statements", "C05_error_free", "C06_statement_terminates", "C07_statements_terminate_partial", "C07_refuted", "C08_statement_panics_partial", "C08_statements_panics_partial", "C08_refuted", "C08_safe_inputs", "C11_statement_no_ice", "C11_statements_no_ice", "C12_statement_numbered", "C12_statements_numbered", "C13_statement_dollar", "C13_statements_dollar", "C29_statement_consumes_all", "C29_statements_consume_all", "C30_statement_block", "C30_statements_block", "C30_resumes", "C36_statement_names", "C36_statements_names", "C19_statement_same_ast", "C19_statements_same_ast", "C20_caps_lint_partial", "C20_caps_lint_statement_partial", "C20_only_lint_issues", "C20_refuted", "C06_budget_independent", "C07_budget_independent", "C31_script", "C31_correct_script", "C44_with_delimiter_partial", "C44_refuted", "C27_statement_reported_partial", "C27_statements_reported_partial", "C27_statement_not_reported", "C27_statements_not_reported", "C27_update_returning", "C27_with", "C27_create_type", "C27_insert_on", "C27_backtick", "C27_opclass", "C27_refuted", "C28_statement_reserved", "C28_statements_reserved", "C28_statement_only_reserved", "C28_statements_only_reserved", "C28_consume_identifier", "C28_token_identifier", "C33_statement_features", "C33_statements_features", "C33_statement_with", "C33_statements_with", "C33_top", "C33_top_in_script", "C22_mode_partial", "C22_error_free", "C22_refuted", "C37_recover", "C37_balanced", "C37_recovered", "C37_recovered_trailing", "C37_fails", "C37_reachable", "C37_list", "C21_statement_only", "C21_statements_only", "C21_statement_capitals_partial", "C21_statements_capitals_partial", "C21_consume_keyword", "C21_skip_keyword", "C21_refuted", "C45_statement_leaves", "C45_statements_leaves", "C45_statement_tags", "C45_statements_tags", "C45_statement_values", "C45_statements_values", "C45_statement_names", "C45_statements_names", "C32_statement_partial", "C32_statements_partial", "C32_refuted", "C25_statement_partial", "C25_expression_partial", "C25_parts_partial", "C25_refuted"], "tail": ""}
{"id": "m49", "failed": [["PropsRecover.v", "recover_unfold"]], "lost": ["C37_recover", "C37_balanced", "C37_recovered", "C37_recovered_trailing", "C37_fails", "C37_reachable", "C37_list"], "tail": ""}
{"id": "m50", "failed": [["Generic.v", "recover_grown"]], "lost": ["C03_statement_appends", "C03_statements_append", "C02_statement_segments", "C02_statements_segments", "C43_statement_independent", "C43_statements_independent", "C24_join_is_hull", "C24_join_comm_assoc_idem", "C24_optional", "C24_list_is_hull", "C24_list_order_irrelevant", "C39_defaults", "C39_each_sets_its_own", "C39_extensional", "C39_commute_and_last_wins", "C14_decode_single", "C14_consumed_value", "C14_decode_single_id", "C15_refuted", "C15_never_undoubled", "C15_plain_partial", "C23_exact_or_error", "C23_decimal", "C26_line", "C26_display_never_panics", "C26_printed", "C26_number", "C26_is_ok", "C38_eq_ignores_span", "C38_order_total_and_consistent", "C38_borrow_consistent", "C01_statement_spans", "C01_statements_spans", "C01_slicing", "C04_none_means_error", "C05_statement", "C05_statements", "C05_error_free", "C06_statement_terminates", "C07_statements_terminate_partial", "C07_refuted", "C08_statement_panics_partial", "C08_statements_panics_partial", "C08_refuted", "C08_safe_inputs", "C11_statement_no_ice", "C11_statements_no_ice", "C12_statement_numbered", "C12_statements_numbered", "C13_statement_dollar", "C13_statements_dollar", "C29_statement_consumes_all", "C29_statements_consume_all", "C30_statement_block", "C30_statements_block", "C30_resumes", "C36_statement_names", "C36_statements_names", "C19_statement_same_ast", "C19_statements_same_ast", "C20_caps_lint_partial", "C20_caps_lint_statement_partial", "C20_only_lint_issues", "C20_refuted", "C06_budget_independent", "C07_budget_independent", "C31_script", "C31_correct_script", "C44_with_delimiter_partial", "C44_refuted", "C27_statement_reported_partial", "C27_statements_reported_partial", "C27_statement_not_reported", "C27_statements_not_reported", "C27_update_returning", "C27_with", "C27_create_type", "C27_insert_on", "C27_backtick", "C27_opclass", "C27_refuted", "C28_statement_reserved", "C28_statements_reserved", "C28_statement_only_reserved", "C28_statements_only_reserved", "C28_consume_identifier", "C28_token_identifier", "C33_statement_features", "C33_statements_features", "C33_statement_with", "C33_statements_with", "C33_top", "C33_top_in_script", "C22_mode_partial", "C22_error_free", "C22_refuted", "C37_recover", "C37_balanced", "C37_recovered", "C37_recovered_trailing", "C37_fails", "C37_reachable", "C37_list", "C21_statement_only", "C21_statements_only", "C21_statement_capitals_partial", "C21_statements_capitals_partial", "C21_consume_keyword", "C21_skip_keyword", "C21_refuted", "C45_statement_leaves", "C45_statements_leaves", "C45_statement_tags", "C45_statements_tags", "C45_statement_values", "C45_statements_values", "C45_statement_names", "C45_statements_names", "C32_statement_partial", "C32_statements_partial", "C32_refuted", "C25_statement_partial", "C25_expression_partial", "C25_parts_partial", "C25_refuted"], "tail": ""}
{"id": "m51", "failed": [["Generic.v", "recover_grown"]], "lost": ["C03_statement_appends", "C03_statements_append", "C02_statement_segments", "C02_statements_segments", "C43_statement_independent", "C43_statements_independent", "C24_join_is_hull", "C24_join_comm_assoc_idem", "C24_optional", "C24_list_is_hull", "C24_list_order_irrelevant", "C39_defaults", "C39_each_sets_its_own", "C39_extensional", "C39_commute_and_last_wins", "C14_decode_single", "C14_consumed_value", "C14_decode_single_id", "C15_refuted", "C15_never_undoubled", "C15_plain_partial", "C23_exact_or_error", "C23_decimal", "C26_line", "C26_display_never_panics", "C26_printed", "C26_number", "C26_is_ok", "C38_eq_ignores_span", "C38_order_total_and_consistent", "C38_borrow_consistent", "C01_statement_spans", "C01_statements_spans", "C01_slicing", "C04_none_means_error", "C05_statement", "C05_statements", "C05_error_free", "C06_statement_terminates", "C07_statements_terminate_partial", "C07_refuted", "C08_statement_panics_partial", "C08_statements_panics_partial", "C08_refuted", "C08_safe_inputs", "C11_statement_no_ice", "C11_statements_no_ice", "C12_statement_numbered", "C12_statements_numbered", "C13_statement_dollar", "C13_statements_dollar", "C29_statement_consumes_all", "C29_statements_consume_all", "C30_statement_block", "C30_statements_block", "C30_resumes", "C36_statement_names", "C36_statements_names", "C19_statement_same_ast", "C19_statements_same_ast", "C20_caps_lint_partial", "C20_caps_lint_statement_partial", "C20_only_lint_issues", "C20_refuted", "C06_budget_independent", "C07_budget_independent", "C31_script", "C31_correct_script", "C44_with_delimiter_partial", "C44_refuted", "C27_statement_reported_partial", "C27_statements_reported_partial", "C27_statement_not_reported", "C27_statements_not_reported", "C27_update_returning", "C27_with", "C27_create_type", "C27_insert_on", "C27_backtick", "C27_opclass", "C27_refuted", "C28_statement_reserved", "C28_statements_reserved", "C28_statement_only_reserved", "C28_statements_only_reserved", "C28_consume_identifier", "C28_token_identifier", "C33_statement_features", "C33_statements_features", "C33_statement_with", "C33_statements_with", "C33_top", "C33_top_in_script", "C22_mode_partial", "C22_error_free", "C22_refuted", "C37_recover", "C37_balanced", "C37_recovered", "C37_recovered_trailing", "C37_fails", "C37_reachable", "C37_list", "C21_statement_only", "C21_statements_only", "C21_statement_capitals_partial", "C21_statements_capitals_partial", "C21_consume_keyword", "C21_skip_keyword", "C21_refuted", "C45_statement_leaves", "C45_statements_leaves", "C45_statement_tags", "C45_statements_tags", "C45_statement_values", "C45_statements_values", "C45_statement_names", "C45_statements_names", "C32_statement_partial", "C32_statements_partial", "C32_refuted", "C25_statement_partial", "C25_expression_partial", "C25_parts_partial", "C25_refuted"], "tail": ""}
{"id": "m52", "failed": [["View.v", "pa_consume_keyword"], ["SafeTac.v", "consume_keyword_spec"]], "lost": ["C01_statement_spans", "C01_statements_spans", "C01_slicing", "C04_none_means_error", "C05_statement", "C05_statements", "C05_error_free", "C06_statement_terminates", "C07_statements_terminate_partial", "C07_refuted", "C08_statement_panics_partial", "C08_statements_panics_partial", "C08_refuted", "C08_safe_inputs", "C11_statement_no_ice", "C11_statements_no_ice", "C12_statement_numbered", "C12_statements_numbered", "C13_statement_dollar", "C13_statements_dollar", "C29_statement_consumes_all", "C29_statements_consume_all", "C30_statement_block", "C30_statements_block", "C30_resumes", "C36_statement_names", "C36_statements_names", "C19_statement_same_ast", "C19_statements_same_ast", "C20_caps_lint_partial", "C20_caps_lint_statement_partial", "C20_only_lint_issues", "C20_refuted", "C09_query_source", "C09_query_unique", "C34_count", "C34_comma", "C34_offset", "C42_components", "C42_source", "C41_union_partial", "C41_refuted", "C06_budget_independent", "C07_budget_independent", "C31_script", "C31_correct_script", "C44_with_delimiter_partial", "C44_refuted", "C27_statement_reported_partial", "C27_statements_reported_partial", "C27_statement_not_reported", "C27_statements_not_reported", "C27_update_returning", "C27_with", "C27_create_type", "C27_insert_on", "C27_backtick", "C27_opclass", "C27_refuted", "C28_statement_reserved", "C28_statements_reserved", "C28_statement_only_reserved", "C28_statements_only_reserved", "C28_consume_identifier", "C28_token_identifier", "C33_statement_features", "C33_statements_features", "C33_statement_with", "C33_statements_with", "C33_top", "C33_top_in_script", "C22_mode_partial", "C22_error_free", "C22_refuted", "C37_recover", "C37_balanced", "C37_recovered", "C37_recovered_trailing", "C37_fails", "C37_reachable", "C37_list", "C21_statement_only", "C21_statements_only", "C21_statement_capitals_partial", "C21_statements_capitals_partial", "C21_consume_keyword", "C21_skip_keyword", "C21_refuted", "C45_statement_leaves", "C45_statements_leaves", "C45_statement_tags", "C45_statements_tags", "C45_statement_values", "C45_statements_values", "C45_statement_names", "C45_statements_names", "C32_statement_partial", "C32_statements_partial", "C32_refuted", "C25_statement_partial", "C25_expression_partial", "C25_parts_partial", "C25_refuted"], "tail": ""}
{"id": "m53", "failed": [], "lost": [], "tail": "COQC theories/Fuel.v\nCOQC theories/SafeGo.v\nCOQC theories/Grammar.v\nCOQC theories/SafeSpan.v\nCOQC theories/GrammarProof.v\nCOQC theories/SafeSelect.v\nCOQC theories/GrammarQuery.v\nCOQC theories/GrammarTop.v\nCOQC theories/PropsQuery.v\nCOQC theories/GrammarStmt.v\nCOQC theories/SafeExpr.v\nCOQC theories/SafeCreate.v\nCOQC theories/SafeDml.v\nCOQC theories/SafeCopy.v\nCOQC theories/SafeStmt.v\nCOQC theories/SafeTop.v\nCOQC theories/PropsSafe.v\nCOQC theories/PropsScript.v\nCOQC theories/PropsDialect.v\nCOQC theories/PropsRecover.v\nCOQC theories/PropsSpan.v\nCOQC theories/PropsLint.v\nCOQC theories/PropsLeaf.v\n"}
{"id": "m54", "failed": [["GrammarStmt.v", "stmt_reads"]], "lost": ["C06_budget_independent", "C07_budget_independent", "C31_script", "C31_correct_script", "C44_with_delimiter_partial", "C44_refuted"], "tail": ""}
{"id": "m55", "failed": [["GrammarStmt.v", "script_runs"], ["SafeTop.v", "statements_step_wp"]], "lost": ["C01_statement_spans", "C01_statements_spans", "C01_slicing", "C04_none_means_error", "C05_statement", "C05_statements", "C05_error_free", "C06_statement_terminates", "C07_statements_terminate_partial", "C07_refuted", "C08_statement_panics_partial", "C08_statements_panics_partial", "C08_refuted", "C08_safe_inputs", "C11_statement_no_ice", "C11_statements_no_ice", "C12_statement_numbered", "C12_statements_numbered", "C13_statement_dollar", "C13_statements_dollar", "C29_statement_consumes_all", "C29_statements_consume_all", "C30_statement_block", "C30_statements_block", "C30_resumes", "C36_statement_names", "C36_statements_names", "C19_statement_same_ast", "C19_statements_same_ast", "C20_caps_lint_partial", "C20_caps_lint_statement_partial", "C20_only_lint_issues", "C20_refuted", "C06_budget_independent", "C07_budget_independent", "C31_script", "C31_correct_script", "C44_with_delimiter_partial", "C44_refuted", "C27_statement_reported_partial", "C27_statements_reported_partial", "C27_statement_not_reported", "C27_statements_not_reported", "C27_update_returning", "C27_with", "C27_create_type", "C27_insert_on", "C27_backtick", "C27_opclass", "C27_refuted", "C28_statement_reserved", "C28_statements_reserved", "C28_statement_only_reserved", "C28_statements_only_reserved", "C28_consume_identifier", "C28_token_identifier", "C33_statement_features", "C33_statements_features", "C33_statement_with", "C33_statements_with", "C33_top", "C33_top_in_script", "C22_mode_partial", "C22_error_free", "C22_refuted", "C37_recover", "C37_balanced", "C37_recovered", "C37_recovered_trailing", "C37_fails", "C37_reachable", "C37_list", "C21_statement_only", "C21_statements_only", "C21_statement_capitals_partial", "C21_statements_capitals_partial", "C21_consume_keyword", "C21_skip_keyword", "C21_refuted", "C45_statement_leaves", "C45_statements_leaves", "C45_statement_tags", "C45_statements_tags", "C45_statement_values", "C45_statements_values", "C45_statement_names", "C45_statements_names", "C32_statement_partial", "C32_statements_partial", "C32_refuted", "C25_statement_partial", "C25_expression_partial", "C25_parts_partial", "C25_refuted"], "tail": ""}
{"id": "m56", "failed": [["GrammarStmt.v", "skip_delims"], ["SafeTop.v", "skip_delimiters_wp"]], "lost": ["C01_statement_spans", "C01_statements_spans", "C01_slicing", "C04_none_means_error", "C05_statement", "C05_statements", "C05_error_free", "C06_statement_terminates", "C07_statements_terminate_partial", "C07_refuted", "C08_statement_panics_partial", "C08_statements_panics_partial", "C08_refuted", "C08_safe_inputs", "C11_statement_no_ice", "C11_statements_no_ice", "C12_statement_numbered", "C12_statements_numbered", "C13_statement_dollar", "C13_statements_dollar", "C29_statement_consumes_all", "C29_statements_consume_all", "C30_statement_block", "C30_statements_block", "C30_resumes", "C36_statement_names", "C36_statements_names", "C19_statement_same_ast", "C19_statements_same_ast", "C20_caps_lint_partial", "C20_caps_lint_statement_partial", "C20_only_lint_issues", "C20_refuted", "C06_budget_independent", "C07_budget_independent", "C31_script", "C31_correct_script", "C44_with_delimiter_partial", "C44_refuted", "C27_statement_reported_partial", "C27_statements_reported_partial", "C27_statement_not_reported", "C27_statements_not_reported", "C27_update_returning", "C27_with", "C27_create_type", "C27_insert_on", "C27_backtick", "C27_opclass", "C27_refuted", "C28_statement_reserved", "C28_statements_reserved", "C28_statement_only_reserved", "C28_statements_only_reserved", "C28_consume_identifier", "C28_token_identifier", "C33_statement_features", "C33_statements_features", "C33_statement_with", "C33_statements_with", "C33_top", "C33_top_in_script", "C22_mode_partial", "C22_error_free", "C22_refuted", "C37_recover", "C37_balanced", "C37_recovered", "C37_recovered_trailing", "C37_fails", "C37_reachable", "C37_list", "C21_statement_only", "C21_statements_only", "C21_statement_capitals_partial", "C21_statements_capitals_partial", "C21_consume_keyword", "C21_skip_keyword", "C21_refuted", "C45_statement_leaves", "C45_statements_leaves", "C45_statement_tags", "C45_statements_tags", "C45_statement_values", "C45_statements_values", "C45_statement_names", "C45_statements_names", "C32_statement_partial", "C32_statements_partial", "C32_refuted", "C25_statement_partial", "C25_expression_partial", "C25_parts_partial", "C25_refuted"], "tail": ""}
{"id": "m57", "failed": [["GrammarStmt.v", "script_runs"], ["SafeTop.v", "statements_step_wp"]], "lost": ["C01_statement_spans", "C01_statements_spans", "C01_slicing", "C04_none_means_error", "C05_statement", "C05_statements", "C05_error_free", "C06_statement_terminates", "C07_statements_terminate_partial", "C07_refuted", "C08_statement_panics_partial", "C08_statements_panics_partial", "C08_refuted", "C08_safe_inputs", "C11_statement_no_ice", "C11_statements_no_ice", "C12_statement_numbered", "C12_statements_numbered", "C13_statement_dollar", "C13_statements_dollar", "C29_statement_consumes_all", "C29_statements_consume_all", "C30_statement_block", "C30_statements_block", "C30_resumes", "C36_statement_names", "C36_statements_names", "C19_statement_same_ast", "C19_statements_same_ast", "C20_caps_lint_partial", "C20_caps_lint_statement_partial", "C20_only_lint_issues", "C20_refuted", "C06_budget_independent", "C07_budget_independent", "C31_script", "C31_correct_script", "C44_with_delimiter_partial", "C44_refuted", "C27_statement_reported_partial", "C27_statements_reported_partial", "C27_statement_not_reported", "C27_statements_not_reported", "C27_update_returning", "C27_with", "C27_create_type", "C27_insert_on", "C27_backtick", "C27_opclass", "C27_refuted", "C28_statement_reserved", "C28_statements_reserved", "C28_statement_only_reserved", "C28_statements_only_reserved", "C28_consume_identifier", "C28_token_identifier", "C33_statement_features", "C33_statements_features", "C33_statement_with", "C33_statements_with", "C33_top", "C33_top_in_script", "C22_mode_partial", "C22_error_free", "C22_refuted", "C37_recover", "C37_balanced", "C37_recovered", "C37_recovered_trailing", "C37_fails", "C37_reachable", "C37_list", "C21_statement_only", "C21_statements_only", "C21_statement_capitals_partial", "C21_statements_capitals_partial", "C21_consume_keyword", "C21_skip_keyword", "C21_refuted", "C45_statement_leaves", "C45_statements_leaves", "C45_statement_tags", "C45_statements_tags", "C45_statement_values", "C45_statements_values", "C45_statement_names", "C45_statements_names", "C32_statement_partial", "C32_statements_partial", "C32_refuted", "C25_statement_partial", "C25_expression_partial", "C25_parts_partial", "C25_refuted"], "tail": ""}
{"id": "m58", "failed": [["GrammarStmt.v", "script_runs"], ["SafeTop.v", "statements_step_wp"]], "lost": ["C01_statement_spans", "C01_statements_spans", "C01_slicing", "C04_none_means_error", "C05_statement", "C05_statements", "C05_error_free", "C06_statement_terminates", "C07_statements_terminate_partial", "C07_refuted", "C08_statement_panics_partial", "C08_statements_panics_partial", "C08_refuted", "C08_safe_inputs", "C11_statement_no_ice", "C11_statements_no_ice", "C12_statement_numbered", "C12_statements_numbered", "C13_statement_dollar", "C13_statements_dollar", "C29_statement_consumes_all", "C29_statements_consume_all", "C30_statement_block", "C30_statements_block", "C30_resumes", "C36_statement_names", "C36_statements_names", "C19_statement_same_ast", "C19_statements_same_ast", "C20_caps_lint_partial", "C20_caps_lint_statement_partial", "C20_only_lint_issues", "C20_refuted", "C06_budget_independent", "C07_budget_independent", "C31_script", "C31_correct_script", "C44_with_delimiter_partial", "C44_refuted", "C27_statement_reported_partial", "C27_statements_reported_partial", "C27_statement_not_reported", "C27_statements_not_reported", "C27_update_returning", "C27_with", "C27_create_type", "C27_insert_on", "C27_backtick", "C27_opclass", "C27_refuted", "C28_statement_reserved", "C28_statements_reserved", "C28_statement_only_reserved", "C28_statements_only_reserved", "C28_consume_identifier", "C28_token_identifier", "C33_statement_features", "C33_statements_features", "C33_statement_with", "C33_statements_with", "C33_top", "C33_top_in_script", "C22_mode_partial", "C22_error_free", "C22_refuted", "C37_recover", "C37_balanced", "C37_recovered", "C37_recovered_trailing", "C37_fails", "C37_reachable", "C37_list", "C21_statement_only", "C21_statements_only", "C21_statement_capitals_partial", "C21_statements_capitals_partial", "C21_consume_keyword", "C21_skip_keyword", "C21_refuted", "C45_statement_leaves", "C45_statements_leaves", "C45_statement_tags", "C45_statements_tags", "C45_statement_values", "C45_statements_values", "C45_statement_names", "C45_statements_names", "C32_statement_partial", "C32_statements_partial", "C32_refuted", "C25_statement_partial", "C25_expression_partial", "C25_parts_partial", "C25_refuted"], "tail": ""}
{"id": "m59", "failed": [["SafeTop.v", "statements_step_wp"]], "lost": ["C01_statement_spans", "C01_statements_spans", "C01_slicing", "C04_none_means_error", "C05_statement", "C05_statements", "C05_error_free", "C06_statement_terminates", "C07_statements_terminate_partial", "C07_refuted", "C08_statement_panics_partial", "C08_statements_panics_partial", "C08_refuted", "C08_safe_inputs", "C11_statement_no_ice", "C11_statements_no_ice", "C12_statement_numbered", "C12_statements_numbered", "C13_statement_dollar", "C13_statements_dollar", "C29_statement_consumes_all", "C29_statements_consume_all", "C30_statement_block", "C30_statements_block", "C30_resumes", "C36_statement_names", "C36_statements_names", "C19_statement_same_ast", "C19_statements_same_ast", "C20_caps_lint_partial", "C20_caps_lint_statement_partial", "C20_only_lint_issues", "C20_refuted", "C06_budget_independent", "C07_budget_independent", "C31_script", "C31_correct_script", "C44_with_delimiter_partial", "C44_refuted", "C27_statement_reported_partial", "C27_statements_reported_partial", "C27_statement_not_reported", "C27_statements_not_reported", "C27_update_returning", "C27_with", "C27_create_type", "C27_insert_on", "C27_backtick", "C27_opclass", "C27_refuted", "C28_statement_reserved", "C28_statements_reserved", "C28_statement_only_reserved", "C28_statements_only_reserved", "C28_consume_identifier", "C28_token_identifier", "C33_statement_features", "C33_statements_features", "C33_statement_with", "C33_statements_with", "C33_top", "C33_top_in_script", "C22_mode_partial", "C22_error_free", "C22_refuted", "C37_recover", "C37_balanced", "C37_recovered", "C37_recovered_trailing", "C37_fails", "C37_reachable", "C37_list", "C21_statement_only", "C21_statements_only", "C21_statement_capitals_partial", "C21_statements_capitals_partial", "C21_consume_keyword", "C21_skip_keyword", "C21_refuted", "C45_statement_leaves", "C45_statements_leaves", "C45_statement_tags", "C45_statements_tags", "C45_statement_values", "C45_statements_values", "C45_statement_names", "C45_statements_names", "C32_statement_partial", "C32_statements_partial", "C32_refuted", "C25_statement_partial", "C25_expression_partial", "C25_parts_partial", "C25_refuted"], "tail": ""}
{"id": "m60", "failed": [["SpanFacts.v", "stmt_some"]], "lost": ["C01_statement_spans", "C01_statements_spans", "C01_slicing", "C04_none_means_error", "C05_statement", "C05_statements", "C05_error_free", "C06_statement_terminates", "C07_statements_terminate_partial", "C07_refuted", "C08_statement_panics_partial", "C08_statements_panics_partial", "C08_refuted", "C08_safe_inputs", "C11_statement_no_ice", "C11_statements_no_ice", "C12_statement_numbered", "C12_statements_numbered", "C13_statement_dollar", "C13_statements_dollar", "C29_statement_consumes_all", "C29_statements_consume_all", "C30_statement_block", "C30_statements_block", "C30_resumes", "C36_statement_names", "C36_statements_names", "C19_statement_same_ast", "C19_statements_same_ast", "C20_caps_lint_partial", "C20_caps_lint_statement_partial", "C20_only_lint_issues", "C20_refuted", "C06_budget_independent", "C07_budget_independent", "C31_script", "C31_correct_script", "C44_with_delimiter_partial", "C44_refuted", "C27_statement_reported_partial", "C27_statements_reported_partial", "C27_statement_not_reported", "C27_statements_not_reported", "C27_update_returning", "C27_with", "C27_create_type", "C27_insert_on", "C27_backtick", "C27_opclass", "C27_refuted", "C28_statement_reserved", "C28_statements_reserved", "C28_statement_only_reserved", "C28_statements_only_reserved", "C28_consume_identifier", "C28_token_identifier", "C33_statement_features", "C33_statements_features", "C33_statement_with", "C33_statements_with", "C33_top", "C33_top_in_script", "C22_mode_partial", "C22_error_free", "C22_refuted", "C37_recover", "C37_balanced", "C37_recovered", "C37_recovered_trailing", "C37_fails", "C37_reachable", "C37_list", "C21_statement_only", "C21_statements_only", "C21_statement_capitals_partial", "C21_statements_capitals_partial", "C21_consume_keyword", "C21_skip_keyword", "C21_refuted", "C45_statement_leaves", "C45_statements_leaves", "C45_statement_tags", "C45_statements_tags", "C45_statement_values", "C45_statements_values", "C45_statement_names", "C45_statements_names", "C32_statement_partial", "C32_statements_partial", "C32_refuted", "C25_statement_partial", "C25_expression_partial", "C25_parts_partial", "C25_refuted"], "tail": ""}
{"id": "m61", "failed": [["PropsSpan.v", "expr_covered"]], "lost": ["C25_statement_partial", "C25_expression_partial", "C25_parts_partial", "C25_refuted"], "tail": ""}
{"id": "m53", "failed": [["StmtGrammar.v", "simple_parses"]], "lost": ["C06_budget_independent", "C07_budget_independent", "C31_script", "C31_correct_script", "C44_with_delimiter_partial", "C44_refuted", "C46_statement", "C46_unique"], "tail": ""}
{"id": "m62", "failed": [["AcceptData.v", "check_of"], ["SafeDml.v", "check_insert_flags_spec"]], "lost": ["C01_statement_spans", "C01_statements_spans", "C01_slicing", "C04_none_means_error", "C05_statement", "C05_statements", "C05_error_free", "C06_statement_terminates", "C07_statements_terminate_partial", "C07_refuted", "C08_statement_panics_partial", "C08_statements_panics_partial", "C08_refuted", "C08_safe_inputs", "C11_statement_no_ice", "C11_statements_no_ice", "C12_statement_numbered", "C12_statements_numbered", "C13_statement_dollar", "C13_statements_dollar", "C29_statement_consumes_all", "C29_statements_consume_all", "C30_statement_block", "C30_statements_block", "C30_resumes", "C36_statement_names", "C36_statements_names", "C19_statement_same_ast", "C19_statements_same_ast", "C20_caps_lint_partial", "C20_caps_lint_statement_partial", "C20_only_lint_issues", "C20_refuted", "C06_budget_independent", "C07_budget_independent", "C31_script", "C31_correct_script", "C44_with_delimiter_partial", "C44_refuted", "C27_statement_reported_partial", "C27_statements_reported_partial", "C27_statement_not_reported", "C27_statements_not_reported", "C27_update_returning", "C27_with", "C27_create_type", "C27_insert_on", "C27_backtick", "C27_opclass", "C27_refuted", "C28_statement_reserved", "C28_statements_reserved", "C28_statement_only_reserved", "C28_statements_only_reserved", "C28_consume_identifier", "C28_token_identifier", "C33_statement_features", "C33_statements_features", "C33_statement_with", "C33_statements_with", "C33_top", "C33_top_in_script", "C22_mode_partial", "C22_error_free", "C22_refuted", "C50_statement_insert", "C50_statements_insert", "C50_top", "C50_top_in_script", "C50_kept", "C37_recover", "C37_balanced", "C37_recovered", "C37_recovered_trailing", "C37_fails", "C37_reachable", "C37_list", "C21_statement_only", "C21_statements_only", "C21_statement_capitals_partial", "C21_statements_capitals_partial", "C21_consume_keyword", "C21_skip_keyword", "C21_refuted", "C52_statement_unquoted", "C52_statements_unquoted", "C52_statement_only", "C52_statements_only", "C45_statement_leaves", "C45_statements_leaves", "C45_statement_tags", "C45_statements_tags", "C45_statement_values", "C45_statements_values", "C45_statement_names", "C45_statements_names", "C32_statement_partial", "C32_statements_partial", "C32_refuted", "C25_statement_partial", "C25_expression_partial", "C25_parts_partial", "C25_refuted", "C49_in_order", "C49_in_order_no_error", "C49_exception_exists", "C46_statement", "C46_unique", "C47_definition", "C47_script", "C47_function", "C47_dollar_function", "C48_if", "C48_case", "C48_do", "C48_trigger_script", "C48_trigger", "C51_statement", "C51_statement_kind", "C51_malformed_reported", "C51_script", "C51_balanced", "C51_unbalanced_reported", "C51_script_balanced", "C51_not_dangling"], "tail": ""}
{"id": "m63", "failed": [["AcceptData.v", "c_source_columns"], ["SafeDml.v", "parse_insert_source_spec"]], "lost": ["C01_statement_spans", "C01_statements_spans", "C01_slicing", "C04_none_means_error", "C05_statement", "C05_statements", "C05_error_free", "C06_statement_terminates", "C07_statements_terminate_partial", "C07_refuted", "C08_statement_panics_partial", "C08_statements_panics_partial", "C08_refuted", "C08_safe_inputs", "C11_statement_no_ice", "C11_statements_no_ice", "C12_statement_numbered", "C12_statements_numbered", "C13_statement_dollar", "C13_statements_dollar", "C29_statement_consumes_all", "C29_statements_consume_all", "C30_statement_block", "C30_statements_block", "C30_resumes", "C36_statement_names", "C36_statements_names", "C19_statement_same_ast", "C19_statements_same_ast", "C20_caps_lint_partial", "C20_caps_lint_statement_partial", "C20_only_lint_issues", "C20_refuted", "C06_budget_independent", "C07_budget_independent", "C31_script", "C31_correct_script", "C44_with_delimiter_partial", "C44_refuted", "C27_statement_reported_partial", "C27_statements_reported_partial", "C27_statement_not_reported", "C27_statements_not_reported", "C27_update_returning", "C27_with", "C27_create_type", "C27_insert_on", "C27_backtick", "C27_opclass", "C27_refuted", "C28_statement_reserved", "C28_statements_reserved", "C28_statement_only_reserved", "C28_statements_only_reserved", "C28_consume_identifier", "C28_token_identifier", "C33_statement_features", "C33_statements_features", "C33_statement_with", "C33_statements_with", "C33_top", "C33_top_in_script", "C22_mode_partial", "C22_error_free", "C22_refuted", "C50_statement_insert", "C50_statements_insert", "C50_top", "C50_top_in_script", "C50_kept", "C37_recover", "C37_balanced", "C37_recovered", "C37_recovered_trailing", "C37_fails", "C37_reachable", "C37_list", "C21_statement_only", "C21_statements_only", "C21_statement_capitals_partial", "C21_statements_capitals_partial", "C21_consume_keyword", "C21_skip_keyword", "C21_refuted", "C52_statement_unquoted", "C52_statements_unquoted", "C52_statement_only", "C52_statements_only", "C45_statement_leaves", "C45_statements_leaves", "C45_statement_tags", "C45_statements_tags", "C45_statement_values", "C45_statements_values", "C45_statement_names", "C45_statements_names", "C32_statement_partial", "C32_statements_partial", "C32_refuted", "C25_statement_partial", "C25_expression_partial", "C25_parts_partial", "C25_refuted", "C49_in_order", "C49_in_order_no_error", "C49_exception_exists", "C46_statement", "C46_unique", "C47_definition", "C47_script", "C47_function", "C47_dollar_function", "C48_if", "C48_case", "C48_do", "C48_trigger_script", "C48_trigger", "C51_statement", "C51_statement_kind", "C51_malformed_reported", "C51_script", "C51_balanced", "C51_unbalanced_reported", "C51_script_balanced", "C51_not_dangling"], "tail": ""}
{"id": "m64", "failed": [["AcceptData.v", "c_source_columns"], ["SafeDml.v", "parse_insert_source_spec"]], "lost": ["C01_statement_spans", "C01_statements_spans", "C01_slicing", "C04_none_means_error", "C05_statement", "C05_statements", "C05_error_free", "C06_statement_terminates", "C07_statements_terminate_partial", "C07_refuted", "C08_statement_panics_partial", "C08_statements_panics_partial", "C08_refuted", "C08_safe_inputs", "C11_statement_no_ice", "C11_statements_no_ice", "C12_statement_numbered", "C12_statements_numbered", "C13_statement_dollar", "C13_statements_dollar", "C29_statement_consumes_all", "C29_statements_consume_all", "C30_statement_block", "C30_statements_block", "C30_resumes", "C36_statement_names", "C36_statements_names", "C19_statement_same_ast", "C19_statements_same_ast", "C20_caps_lint_partial", "C20_caps_lint_statement_partial", "C20_only_lint_issues", "C20_refuted", "C06_budget_independent", "C07_budget_independent", "C31_script", "C31_correct_script", "C44_with_delimiter_partial", "C44_refuted", "C27_statement_reported_partial", "C27_statements_reported_partial", "C27_statement_not_reported", "C27_statements_not_reported", "C27_update_returning", "C27_with", "C27_create_type", "C27_insert_on", "C27_backtick", "C27_opclass", "C27_refuted", "C28_statement_reserved", "C28_statements_reserved", "C28_statement_only_reserved", "C28_statements_only_reserved", "C28_consume_identifier", "C28_token_identifier", "C33_statement_features", "C33_statements_features", "C33_statement_with", "C33_statements_with", "C33_top", "C33_top_in_script", "C22_mode_partial", "C22_error_free", "C22_refuted", "C50_statement_insert", "C50_statements_insert", "C50_top", "C50_top_in_script", "C50_kept", "C37_recover", "C37_balanced", "C37_recovered", "C37_recovered_trailing", "C37_fails", "C37_reachable", "C37_list", "C21_statement_only", "C21_statements_only", "C21_statement_capitals_partial", "C21_statements_capitals_partial", "C21_consume_keyword", "C21_skip_keyword", "C21_refuted", "C52_statement_unquoted", "C52_statements_unquoted", "C52_statement_only", "C52_statements_only", "C45_statement_leaves", "C45_statements_leaves", "C45_statement_tags", "C45_statements_tags", "C45_statement_values", "C45_statements_values", "C45_statement_names", "C45_statements_names", "C32_statement_partial", "C32_statements_partial", "C32_refuted", "C25_statement_partial", "C25_expression_partial", "C25_parts_partial", "C25_refuted", "C49_in_order", "C49_in_order_no_error", "C49_exception_exists", "C46_statement", "C46_unique", "C47_definition", "C47_script", "C47_function", "C47_dollar_function", "C48_if", "C48_case", "C48_do", "C48_trigger_script", "C48_trigger", "C51_statement", "C51_statement_kind", "C51_malformed_reported", "C51_script", "C51_balanced", "C51_unbalanced_reported", "C51_script_balanced", "C51_not_dangling"], "tail": ""}
{"id": "m65", "failed": [["SafeTop.v", "statements_step_wp"]], "lost": ["C01_statement_spans", "C01_statements_spans", "C01_slicing", "C04_none_means_error", "C05_statement", "C05_statements", "C05_error_free", "C06_statement_terminates", "C07_statements_terminate_partial", "C07_refuted", "C08_statement_panics_partial", "C08_statements_panics_partial", "C08_refuted", "C08_safe_inputs", "C11_statement_no_ice", "C11_statements_no_ice", "C12_statement_numbered", "C12_statements_numbered", "C13_statement_dollar", "C13_statements_dollar", "C29_statement_consumes_all", "C29_statements_consume_all", "C30_statement_block", "C30_statements_block", "C30_resumes", "C36_statement_names", "C36_statements_names", "C19_statement_same_ast", "C19_statements_same_ast", "C20_caps_lint_partial", "C20_caps_lint_statement_partial", "C20_only_lint_issues", "C20_refuted", "C06_budget_independent", "C07_budget_independent", "C31_script", "C31_correct_script", "C44_with_delimiter_partial", "C44_refuted", "C27_statement_reported_partial", "C27_statements_reported_partial", "C27_statement_not_reported", "C27_statements_not_reported", "C27_update_returning", "C27_with", "C27_create_type", "C27_insert_on", "C27_backtick", "C27_opclass", "C27_refuted", "C28_statement_reserved", "C28_statements_reserved", "C28_statement_only_reserved", "C28_statements_only_reserved", "C28_consume_identifier", "C28_token_identifier", "C33_statement_features", "C33_statements_features", "C33_statement_with", "C33_statements_with", "C33_top", "C33_top_in_script", "C22_mode_partial", "C22_error_free", "C22_refuted", "C50_statement_insert", "C50_statements_insert", "C50_top", "C50_top_in_script", "C50_kept", "C37_recover", "C37_balanced", "C37_recovered", "C37_recovered_trailing", "C37_fails", "C37_reachable", "C37_list", "C21_statement_only", "C21_statements_only", "C21_statement_capitals_partial", "C21_statements_capitals_partial", "C21_consume_keyword", "C21_skip_keyword", "C21_refuted", "C52_statement_unquoted", "C52_statements_unquoted", "C52_statement_only", "C52_statements_only", "C45_statement_leaves", "C45_statements_leaves", "C45_statement_tags", "C45_statements_tags", "C45_statement_values", "C45_statements_values", "C45_statement_names", "C45_statements_names", "C32_statement_partial", "C32_statements_partial", "C32_refuted", "C25_statement_partial", "C25_expression_partial", "C25_parts_partial", "C25_refuted", "C49_in_order", "C49_in_order_no_error", "C49_exception_exists", "C46_statement", "C46_unique", "C47_definition", "C47_script", "C47_function", "C47_dollar_function", "C48_if", "C48_case", "C48_do", "C48_trigger_script", "C48_trigger", "C51_statement", "C51_statement_kind", "C51_malformed_reported", "C51_script", "C51_balanced", "C51_unbalanced_reported", "C51_script_balanced", "C51_not_dangling"], "tail": ""}
{"id": "m66", "failed": [["AcceptTop.v", "step_accepts"], ["SafeTop.v", "statements_step_wp"], ["GrammarStmt.v", "script_runs"]], "lost": ["C01_statement_spans", "C01_statements_spans", "C01_slicing", "C04_none_means_error", "C05_statement", "C05_statements", "C05_error_free", "C06_statement_terminates", "C07_statements_terminate_partial", "C07_refuted", "C08_statement_panics_partial", "C08_statements_panics_partial", "C08_refuted", "C08_safe_inputs", "C11_statement_no_ice", "C11_statements_no_ice", "C12_statement_numbered", "C12_statements_numbered", "C13_statement_dollar", "C13_statements_dollar", "C29_statement_consumes_all", "C29_statements_consume_all", "C30_statement_block", "C30_statements_block", "C30_resumes", "C36_statement_names", "C36_statements_names", "C19_statement_same_ast", "C19_statements_same_ast", "C20_caps_lint_partial", "C20_caps_lint_statement_partial", "C20_only_lint_issues", "C20_refuted", "C06_budget_independent", "C07_budget_independent", "C31_script", "C31_correct_script", "C44_with_delimiter_partial", "C44_refuted", "C27_statement_reported_partial", "C27_statements_reported_partial", "C27_statement_not_reported", "C27_statements_not_reported", "C27_update_returning", "C27_with", "C27_create_type", "C27_insert_on", "C27_backtick", "C27_opclass", "C27_refuted", "C28_statement_reserved", "C28_statements_reserved", "C28_statement_only_reserved", "C28_statements_only_reserved", "C28_consume_identifier", "C28_token_identifier", "C33_statement_features", "C33_statements_features", "C33_statement_with", "C33_statements_with", "C33_top", "C33_top_in_script", "C22_mode_partial", "C22_error_free", "C22_refuted", "C50_statement_insert", "C50_statements_insert", "C50_top", "C50_top_in_script", "C50_kept", "C37_recover", "C37_balanced", "C37_recovered", "C37_recovered_trailing", "C37_fails", "C37_reachable", "C37_list", "C21_statement_only", "C21_statements_only", "C21_statement_capitals_partial", "C21_statements_capitals_partial", "C21_consume_keyword", "C21_skip_keyword", "C21_refuted", "C52_statement_unquoted", "C52_statements_unquoted", "C52_statement_only", "C52_statements_only", "C45_statement_leaves", "C45_statements_leaves", "C45_statement_tags", "C45_statements_tags", "C45_statement_values", "C45_statements_values", "C45_statement_names", "C45_statements_names", "C32_statement_partial", "C32_statements_partial", "C32_refuted", "C25_statement_partial", "C25_expression_partial", "C25_parts_partial", "C25_refuted", "C49_in_order", "C49_in_order_no_error", "C49_exception_exists", "C46_statement", "C46_unique", "C47_definition", "C47_script", "C47_function", "C47_dollar_function", "C48_if", "C48_case", "C48_do", "C48_trigger_script", "C48_trigger", "C51_statement", "C51_statement_kind", "C51_malformed_reported", "C51_script", "C51_balanced", "C51_unbalanced_reported", "C51_script_balanced", "C51_not_dangling"], "tail": ""}
{"id": "m67", "failed": [["AcceptTop.v", "body_accepts"], ["SafeTop.v", "statement_body_wp"]], "lost": ["C01_statement_spans", "C01_statements_spans", "C01_slicing", "C04_none_means_error", "C05_statement", "C05_statements", "C05_error_free", "C06_statement_terminates", "C07_statements_terminate_partial", "C07_refuted", "C08_statement_panics_partial", "C08_statements_panics_partial", "C08_refuted", "C08_safe_inputs", "C11_statement_no_ice", "C11_statements_no_ice", "C12_statement_numbered", "C12_statements_numbered", "C13_statement_dollar", "C13_statements_dollar", "C29_statement_consumes_all", "C29_statements_consume_all", "C30_statement_block", "C30_statements_block", "C30_resumes", "C36_statement_names", "C36_statements_names", "C19_statement_same_ast", "C19_statements_same_ast", "C20_caps_lint_partial", "C20_caps_lint_statement_partial", "C20_only_lint_issues", "C20_refuted", "C06_budget_independent", "C07_budget_independent", "C31_script", "C31_correct_script", "C44_with_delimiter_partial", "C44_refuted", "C27_statement_reported_partial", "C27_statements_reported_partial", "C27_statement_not_reported", "C27_statements_not_reported", "C27_update_returning", "C27_with", "C27_create_type", "C27_insert_on", "C27_backtick", "C27_opclass", "C27_refuted", "C28_statement_reserved", "C28_statements_reserved", "C28_statement_only_reserved", "C28_statements_only_reserved", "C28_consume_identifier", "C28_token_identifier", "C33_statement_features", "C33_statements_features", "C33_statement_with", "C33_statements_with", "C33_top", "C33_top_in_script", "C22_mode_partial", "C22_error_free", "C22_refuted", "C50_statement_insert", "C50_statements_insert", "C50_top", "C50_top_in_script", "C50_kept", "C37_recover", "C37_balanced", "C37_recovered", "C37_recovered_trailing", "C37_fails", "C37_reachable", "C37_list", "C21_statement_only", "C21_statements_only", "C21_statement_capitals_partial", "C21_statements_capitals_partial", "C21_consume_keyword", "C21_skip_keyword", "C21_refuted", "C52_statement_unquoted", "C52_statements_unquoted", "C52_statement_only", "C52_statements_only", "C45_statement_leaves", "C45_statements_leaves", "C45_statement_tags", "C45_statements_tags", "C45_statement_values", "C45_statements_values", "C45_statement_names", "C45_statements_names", "C32_statement_partial", "C32_statements_partial", "C32_refuted", "C25_statement_partial", "C25_expression_partial", "C25_parts_partial", "C25_refuted", "C49_in_order", "C49_in_order_no_error", "C49_exception_exists", "C46_statement", "C46_unique", "C47_definition", "C47_script", "C47_function", "C47_dollar_function", "C48_if", "C48_case", "C48_do", "C48_trigger_script", "C48_trigger", "C51_statement", "C51_statement_kind", "C51_malformed_reported", "C51_script", "C51_balanced", "C51_unbalanced_reported", "C51_script_balanced", "C51_not_dangling"], "tail": ""}
{"id": "m68", "failed": [["AcceptData.v", "c_conflict_target"], ["StmtGrammar.v", "pb_target"]], "lost": ["C06_budget_independent", "C07_budget_independent", "C31_script", "C31_correct_script", "C44_with_delimiter_partial", "C44_refuted", "C46_statement", "C46_unique", "C47_definition", "C47_script", "C47_function", "C47_dollar_function", "C48_if", "C48_case", "C48_do", "C48_trigger_script", "C48_trigger", "C51_statement", "C51_statement_kind", "C51_malformed_reported", "C51_script", "C51_balanced", "C51_unbalanced_reported", "C51_script_balanced", "C51_not_dangling"], "tail": ""}
{"id": "m69", "failed": [["AcceptTop.v", "step_accepts"], ["SafeTop.v", "statements_step_wp"], ["GrammarStmt.v", "script_runs"]], "lost": ["C01_statement_spans", "C01_statements_spans", "C01_slicing", "C04_none_means_error", "C05_statement", "C05_statements", "C05_error_free", "C06_statement_terminates", "C07_statements_terminate_partial", "C07_refuted", "C08_statement_panics_partial", "C08_statements_panics_partial", "C08_refuted", "C08_safe_inputs", "C11_statement_no_ice", "C11_statements_no_ice", "C12_statement_numbered", "C12_statements_numbered", "C13_statement_dollar", "C13_statements_dollar", "C29_statement_consumes_all", "C29_statements_consume_all", "C30_statement_block", "C30_statements_block", "C30_resumes", "C36_statement_names", "C36_statements_names", "C19_statement_same_ast", "C19_statements_same_ast", "C20_caps_lint_partial", "C20_caps_lint_statement_partial", "C20_only_lint_issues", "C20_refuted", "C06_budget_independent", "C07_budget_independent", "C31_script", "C31_correct_script", "C44_with_delimiter_partial", "C44_refuted", "C27_statement_reported_partial", "C27_statements_reported_partial", "C27_statement_not_reported", "C27_statements_not_reported", "C27_update_returning", "C27_with", "C27_create_type", "C27_insert_on", "C27_backtick", "C27_opclass", "C27_refuted", "C28_statement_reserved", "C28_statements_reserved", "C28_statement_only_reserved", "C28_statements_only_reserved", "C28_consume_identifier", "C28_token_identifier", "C33_statement_features", "C33_statements_features", "C33_statement_with", "C33_statements_with", "C33_top", "C33_top_in_script", "C22_mode_partial", "C22_error_free", "C22_refuted", "C50_statement_insert", "C50_statements_insert", "C50_top", "C50_top_in_script", "C50_kept", "C37_recover", "C37_balanced", "C37_recovered", "C37_recovered_trailing", "C37_fails", "C37_reachable", "C37_list", "C21_statement_only", "C21_statements_only", "C21_statement_capitals_partial", "C21_statements_capitals_partial", "C21_consume_keyword", "C21_skip_keyword", "C21_refuted", "C52_statement_unquoted", "C52_statements_unquoted", "C52_statement_only", "C52_statements_only", "C45_statement_leaves", "C45_statements_leaves", "C45_statement_tags", "C45_statements_tags", "C45_statement_values", "C45_statements_values", "C45_statement_names", "C45_statements_names", "C32_statement_partial", "C32_statements_partial", "C32_refuted", "C25_statement_partial", "C25_expression_partial", "C25_parts_partial", "C25_refuted", "C49_in_order", "C49_in_order_no_error", "C49_exception_exists", "C46_statement", "C46_unique", "C47_definition", "C47_script", "C47_function", "C47_dollar_function", "C48_if", "C48_case", "C48_do", "C48_trigger_script", "C48_trigger", "C51_statement", "C51_statement_kind", "C51_malformed_reported", "C51_script", "C51_balanced", "C51_unbalanced_reported", "C51_script_balanced", "C51_not_dangling"], "tail": ""}
{"id": "m70", "failed": [["AcceptData.v", "c_source_columns"], ["StmtGrammar.v", "pb_source"]], "lost": ["C06_budget_independent", "C07_budget_independent", "C31_script", "C31_correct_script", "C44_with_delimiter_partial", "C44_refuted", "C46_statement", "C46_unique", "C47_definition", "C47_script", "C47_function", "C47_dollar_function", "C48_if", "C48_case", "C48_do", "C48_trigger_script", "C48_trigger", "C51_statement", "C51_statement_kind", "C51_malformed_reported", "C51_script", "C51_balanced", "C51_unbalanced_reported", "C51_script_balanced", "C51_not_dangling"], "tail": ""}
{"id": "m71", "failed": [["Grammar.v", "word_facts"], ["SafeTac.v", "token_to_plain_identifier_spec"], ["AcceptExpr.v", "plain_of"]], "lost": ["C01_statement_spans", "C01_statements_spans", "C01_slicing", "C04_none_means_error", "C05_statement", "C05_statements", "C05_error_free", "C06_statement_terminates", "C07_statements_terminate_partial", "C07_refuted", "C08_statement_panics_partial", "C08_statements_panics_partial", "C08_refuted", "C08_safe_inputs", "C11_statement_no_ice", "C11_statements_no_ice", "C12_statement_numbered", "C12_statements_numbered", "C13_statement_dollar", "C13_statements_dollar", "C29_statement_consumes_all", "C29_statements_consume_all", "C30_statement_block", "C30_statements_block", "C30_resumes", "C36_statement_names", "C36_statements_names", "C19_statement_same_ast", "C19_statements_same_ast", "C20_caps_lint_partial", "C20_caps_lint_statement_partial", "C20_only_lint_issues", "C20_refuted", "C09_query_source", "C09_query_unique", "C34_count", "C34_comma", "C34_offset", "C42_components", "C42_source", "C41_union_partial", "C41_refuted", "C06_budget_independent", "C07_budget_independent", "C31_script", "C31_correct_script", "C44_with_delimiter_partial", "C44_refuted", "C27_statement_reported_partial", "C27_statements_reported_partial", "C27_statement_not_reported", "C27_statements_not_reported", "C27_update_returning", "C27_with", "C27_create_type", "C27_insert_on", "C27_backtick", "C27_opclass", "C27_refuted", "C28_statement_reserved", "C28_statements_reserved", "C28_statement_only_reserved", "C28_statements_only_reserved", "C28_consume_identifier", "C28_token_identifier", "C33_statement_features", "C33_statements_features", "C33_statement_with", "C33_statements_with", "C33_top", "C33_top_in_script", "C22_mode_partial", "C22_error_free", "C22_refuted", "C50_statement_insert", "C50_statements_insert", "C50_top", "C50_top_in_script", "C50_kept", "C37_recover", "C37_balanced", "C37_recovered", "C37_recovered_trailing", "C37_fails", "C37_reachable", "C37_list", "C21_statement_only", "C21_statements_only", "C21_statement_capitals_partial", "C21_statements_capitals_partial", "C21_consume_keyword", "C21_skip_keyword", "C21_refuted", "C52_statement_unquoted", "C52_statements_unquoted", "C52_statement_only", "C52_statements_only", "C45_statement_leaves", "C45_statements_leaves", "C45_statement_tags", "C45_statements_tags", "C45_statement_values", "C45_statements_values", "C45_statement_names", "C45_statements_names", "C32_statement_partial", "C32_statements_partial", "C32_refuted", "C25_statement_partial", "C25_expression_partial", "C25_parts_partial", "C25_refuted", "C49_in_order", "C49_in_order_no_error", "C49_exception_exists", "C46_statement", "C46_unique", "C47_definition", "C47_script", "C47_function", "C47_dollar_function", "C48_if", "C48_case", "C48_do", "C48_trigger_script", "C48_trigger", "C51_statement", "C51_statement_kind", "C51_malformed_reported", "C51_script", "C51_balanced", "C51_unbalanced_reported", "C51_script_balanced", "C51_not_dangling"], "tail": ""}
{"id": "m72", "failed": [["View.v", "pa_name"], ["SafeTac.v", "consume_plain_identifier_spec"]], "lost": ["C01_statement_spans", "C01_statements_spans", "C01_slicing", "C04_none_means_error", "C05_statement", "C05_statements", "C05_error_free", "C06_statement_terminates", "C07_statements_terminate_partial", "C07_refuted", "C08_statement_panics_partial", "C08_statements_panics_partial", "C08_refuted", "C08_safe_inputs", "C11_statement_no_ice", "C11_statements_no_ice", "C12_statement_numbered", "C12_statements_numbered", "C13_statement_dollar", "C13_statements_dollar", "C29_statement_consumes_all", "C29_statements_consume_all", "C30_statement_block", "C30_statements_block", "C30_resumes", "C36_statement_names", "C36_statements_names", "C19_statement_same_ast", "C19_statements_same_ast", "C20_caps_lint_partial", "C20_caps_lint_statement_partial", "C20_only_lint_issues", "C20_refuted", "C09_query_source", "C09_query_unique", "C34_count", "C34_comma", "C34_offset", "C42_components", "C42_source", "C41_union_partial", "C41_refuted", "C06_budget_independent", "C07_budget_independent", "C31_script", "C31_correct_script", "C44_with_delimiter_partial", "C44_refuted", "C27_statement_reported_partial", "C27_statements_reported_partial", "C27_statement_not_reported", "C27_statements_not_reported", "C27_update_returning", "C27_with", "C27_create_type", "C27_insert_on", "C27_backtick", "C27_opclass", "C27_refuted", "C28_statement_reserved", "C28_statements_reserved", "C28_statement_only_reserved", "C28_statements_only_reserved", "C28_consume_identifier", "C28_token_identifier", "C33_statement_features", "C33_statements_features", "C33_statement_with", "C33_statements_with", "C33_top", "C33_top_in_script", "C22_mode_partial", "C22_error_free", "C22_refuted", "C50_statement_insert", "C50_statements_insert", "C50_top", "C50_top_in_script", "C50_kept", "C37_recover", "C37_balanced", "C37_recovered", "C37_recovered_trailing", "C37_fails", "C37_reachable", "C37_list", "C21_statement_only", "C21_statements_only", "C21_statement_capitals_partial", "C21_statements_capitals_partial", "C21_consume_keyword", "C21_skip_keyword", "C21_refuted", "C52_statement_unquoted", "C52_statements_unquoted", "C52_statement_only", "C52_statements_only", "C45_statement_leaves", "C45_statements_leaves", "C45_statement_tags", "C45_statements_tags", "C45_statement_values", "C45_statements_values", "C45_statement_names", "C45_statements_names", "C32_statement_partial", "C32_statements_partial", "C32_refuted", "C25_statement_partial", "C25_expression_partial", "C25_parts_partial", "C25_refuted", "C49_in_order", "C49_in_order_no_error", "C49_exception_exists", "C46_statement", "C46_unique", "C47_definition", "C47_script", "C47_function", "C47_dollar_function", "C48_if", "C48_case", "C48_do", "C48_trigger_script", "C48_trigger", "C51_statement", "C51_statement_kind", "C51_malformed_reported", "C51_script", "C51_balanced", "C51_unbalanced_reported", "C51_script_balanced", "C51_not_dangling"], "tail": ""}
{"id": "m73", "failed": [["SafeTac.v", "consume_plain_identifier_spec"]], "lost": ["C01_statement_spans", "C01_statements_spans", "C01_slicing", "C04_none_means_error", "C05_statement", "C05_statements", "C05_error_free", "C06_statement_terminates", "C07_statements_terminate_partial", "C07_refuted", "C08_statement_panics_partial", "C08_statements_panics_partial", "C08_refuted", "C08_safe_inputs", "C11_statement_no_ice", "C11_statements_no_ice", "C12_statement_numbered", "C12_statements_numbered", "C13_statement_dollar", "C13_statements_dollar", "C29_statement_consumes_all", "C29_statements_consume_all", "C30_statement_block", "C30_statements_block", "C30_resumes", "C36_statement_names", "C36_statements_names", "C19_statement_same_ast", "C19_statements_same_ast", "C20_caps_lint_partial", "C20_caps_lint_statement_partial", "C20_only_lint_issues", "C20_refuted", "C06_budget_independent", "C07_budget_independent", "C31_script", "C31_correct_script", "C44_with_delimiter_partial", "C44_refuted", "C27_statement_reported_partial", "C27_statements_reported_partial", "C27_statement_not_reported", "C27_statements_not_reported", "C27_update_returning", "C27_with", "C27_create_type", "C27_insert_on", "C27_backtick", "C27_opclass", "C27_refuted", "C28_statement_reserved", "C28_statements_reserved", "C28_statement_only_reserved", "C28_statements_only_reserved", "C28_consume_identifier", "C28_token_identifier", "C33_statement_features", "C33_statements_features", "C33_statement_with", "C33_statements_with", "C33_top", "C33_top_in_script", "C22_mode_partial", "C22_error_free", "C22_refuted", "C50_statement_insert", "C50_statements_insert", "C50_top", "C50_top_in_script", "C50_kept", "C37_recover", "C37_balanced", "C37_recovered", "C37_recovered_trailing", "C37_fails", "C37_reachable", "C37_list", "C21_statement_only", "C21_statements_only", "C21_statement_capitals_partial", "C21_statements_capitals_partial", "C21_consume_keyword", "C21_skip_keyword", "C21_refuted", "C52_statement_unquoted", "C52_statements_unquoted", "C52_statement_only", "C52_statements_only", "C45_statement_leaves", "C45_statements_leaves", "C45_statement_tags", "C45_statements_tags", "C45_statement_values", "C45_statements_values", "C45_statement_names", "C45_statements_names", "C32_statement_partial", "C32_statements_partial", "C32_refuted", "C25_statement_partial", "C25_expression_partial", "C25_parts_partial", "C25_refuted", "C49_in_order", "C49_in_order_no_error", "C49_exception_exists", "C46_statement", "C46_unique", "C47_definition", "C47_script", "C47_function", "C47_dollar_function", "C48_if", "C48_case", "C48_do", "C48_trigger_script", "C48_trigger", "C51_statement", "C51_statement_kind", "C51_malformed_reported", "C51_script", "C51_balanced", "C51_unbalanced_reported", "C51_script_balanced", "C51_not_dangling"], "tail": ""}
{"id": "m74", "failed": [["StmtGrammar.v", "pb_delete"], ["KeepDdl.v", "parse_delete_k"]], "lost": ["C06_budget_independent", "C07_budget_independent", "C31_script", "C31_correct_script", "C44_with_delimiter_partial", "C44_refuted", "C46_statement", "C46_unique", "C47_definition", "C47_script", "C47_function", "C47_dollar_function", "C48_if", "C48_case", "C48_do", "C48_trigger_script", "C48_trigger", "C53_statement", "C53_statements"], "tail": ""}
{"id": "m75", "failed": [["KeepQuery.v", "opt_where_k"], ["GrammarQuery.v", "pa_cond"]], "lost": ["C09_query_source", "C09_query_unique", "C34_count", "C34_comma", "C34_offset", "C42_components", "C42_source", "C41_union_partial", "C41_refuted", "C06_budget_independent", "C07_budget_independent", "C31_script", "C31_correct_script", "C44_with_delimiter_partial", "C44_refuted", "C46_statement", "C46_unique", "C47_definition", "C47_script", "C47_function", "C47_dollar_function", "C48_if", "C48_case", "C48_do", "C48_trigger_script", "C48_trigger", "C53_statement", "C53_statements"], "tail": ""}
{"id": "m76", "failed": [["KeepQuery.v", "parse_limit_k"], ["GrammarQuery.v", "c_limit_comma"]], "lost": ["C09_query_source", "C09_query_unique", "C34_count", "C34_comma", "C34_offset", "C42_components", "C42_source", "C41_union_partial", "C41_refuted", "C06_budget_independent", "C07_budget_independent", "C31_script", "C31_correct_script", "C44_with_delimiter_partial", "C44_refuted", "C46_statement", "C46_unique", "C47_definition", "C47_script", "C47_function", "C47_dollar_function", "C48_if", "C48_case", "C48_do", "C48_trigger_script", "C48_trigger", "C53_statement", "C53_statements"], "tail": ""}
{"id": "m77", "failed": [["GrammarOps.v", "c_arg"], ["SafeExpr.v", "step_tail_spec"]], "lost": ["C01_statement_spans", "C01_statements_spans", "C01_slicing", "C04_none_means_error", "C05_statement", "C05_statements", "C05_error_free", "C06_statement_terminates", "C07_statements_terminate_partial", "C07_refuted", "C08_statement_panics_partial", "C08_statements_panics_partial", "C08_refuted", "C08_safe_inputs", "C11_statement_no_ice", "C11_statements_no_ice", "C12_statement_numbered", "C12_statements_numbered", "C13_statement_dollar", "C13_statements_dollar", "C29_statement_consumes_all", "C29_statements_consume_all", "C30_statement_block", "C30_statements_block", "C30_resumes", "C36_statement_names", "C36_statements_names", "C19_statement_same_ast", "C19_statements_same_ast", "C20_caps_lint_partial", "C20_caps_lint_statement_partial", "C20_only_lint_issues", "C20_refuted", "C09_query_source", "C09_query_unique", "C34_count", "C34_comma", "C34_offset", "C42_components", "C42_source", "C41_union_partial", "C41_refuted", "C06_budget_independent", "C07_budget_independent", "C31_script", "C31_correct_script", "C44_with_delimiter_partial", "C44_refuted", "C27_statement_reported_partial", "C27_statements_reported_partial", "C27_statement_not_reported", "C27_statements_not_reported", "C27_update_returning", "C27_with", "C27_create_type", "C27_insert_on", "C27_backtick", "C27_opclass", "C27_refuted", "C28_statement_reserved", "C28_statements_reserved", "C28_statement_only_reserved", "C28_statements_only_reserved", "C28_consume_identifier", "C28_token_identifier", "C33_statement_features", "C33_statements_features", "C33_statement_with", "C33_statements_with", "C33_top", "C33_top_in_script", "C22_mode_partial", "C22_error_free", "C22_refuted", "C50_statement_insert", "C50_statements_insert", "C50_top", "C50_top_in_script", "C50_kept", "C37_recover", "C37_balanced", "C37_recovered", "C37_recovered_trailing", "C37_fails", "C37_reachable", "C37_list", "C21_statement_only", "C21_statements_only", "C21_statement_capitals_partial", "C21_statements_capitals_partial", "C21_consume_keyword", "C21_skip_keyword", "C21_refuted", "C52_statement_unquoted", "C52_statements_unquoted", "C52_statement_only", "C52_statements_only", "C45_statement_leaves", "C45_statements_leaves", "C45_statement_tags", "C45_statements_tags", "C45_statement_values", "C45_statements_values", "C45_statement_names", "C45_statements_names", "C32_statement_partial", "C32_statements_partial", "C32_refuted", "C25_statement_partial", "C25_expression_partial", "C25_parts_partial", "C25_refuted", "C49_in_order", "C49_in_order_no_error", "C49_exception_exists", "C46_statement", "C46_unique", "C47_definition", "C47_script", "C47_function", "C47_dollar_function", "C48_if", "C48_case", "C48_do", "C48_trigger_script", "C48_trigger", "C51_statement", "C51_statement_kind", "C51_malformed_reported", "C51_script", "C51_balanced", "C51_unbalanced_reported", "C51_script_balanced", "C51_not_dangling", "C53_statement", "C53_statements"], "tail": ""}
{"id": "m78", "failed": [["StmtGrammar.v", "pb_update"], ["KeepDdl.v", "parse_update_k"]], "lost": ["C06_budget_independent", "C07_budget_independent", "C31_script", "C31_correct_script", "C44_with_delimiter_partial", "C44_refuted", "C46_statement", "C46_unique", "C47_definition", "C47_script", "C47_function", "C47_dollar_function", "C48_if", "C48_case", "C48_do", "C48_trigger_script", "C48_trigger", "C53_statement", "C53_statements"], "tail": ""}
{"id": "m79", "failed": [["KeepStmt.v", "parse_if_condition_k"], ["GrammarStmt.v", "rd_condition"]], "lost": ["C06_budget_independent", "C07_budget_independent", "C31_script", "C31_correct_script", "C44_with_delimiter_partial", "C44_refuted", "C46_statement", "C46_unique", "C47_definition", "C47_script", "C47_function", "C47_dollar_function", "C48_if", "C48_case", "C48_do", "C48_trigger_script", "C48_trigger", "C53_statement", "C53_statements"], "tail": ""}
{"id": "m80", "failed": [["KeepDdl.v", "parse_index_col_k"], ["DdlTable.v", "pb_index_col"]], "lost": ["C06_budget_independent", "C07_budget_independent", "C31_script", "C31_correct_script", "C44_with_delimiter_partial", "C44_refuted", "C46_statement", "C46_unique", "C47_definition", "C47_script", "C47_function", "C47_dollar_function", "C48_if", "C48_case", "C48_do", "C48_trigger_script", "C48_trigger", "C53_statement", "C53_statements", "C54_statement", "C54_statements"], "tail": ""}
{"id": "m81", "failed": [["TokRules.v", "pb_enum"], ["SafeSelect.v", "parse_enum_set_values_spec"], ["KeepQuery.v", "parse_enum_set_values_k"]], "lost": ["C01_statement_spans", "C01_statements_spans", "C01_slicing", "C04_none_means_error", "C05_statement", "C05_statements", "C05_error_free", "C06_statement_terminates", "C07_statements_terminate_partial", "C07_refuted", "C08_statement_panics_partial", "C08_statements_panics_partial", "C08_refuted", "C08_safe_inputs", "C11_statement_no_ice", "C11_statements_no_ice", "C12_statement_numbered", "C12_statements_numbered", "C13_statement_dollar", "C13_statements_dollar", "C29_statement_consumes_all", "C29_statements_consume_all", "C30_statement_block", "C30_statements_block", "C30_resumes", "C36_statement_names", "C36_statements_names", "C19_statement_same_ast", "C19_statements_same_ast", "C20_caps_lint_partial", "C20_caps_lint_statement_partial", "C20_only_lint_issues", "C20_refuted", "C09_query_source", "C09_query_unique", "C34_count", "C34_comma", "C34_offset", "C42_components", "C42_source", "C41_union_partial", "C41_refuted", "C06_budget_independent", "C07_budget_independent", "C31_script", "C31_correct_script", "C44_with_delimiter_partial", "C44_refuted", "C27_statement_reported_partial", "C27_statements_reported_partial", "C27_statement_not_reported", "C27_statements_not_reported", "C27_update_returning", "C27_with", "C27_create_type", "C27_insert_on", "C27_backtick", "C27_opclass", "C27_refuted", "C28_statement_reserved", "C28_statements_reserved", "C28_statement_only_reserved", "C28_statements_only_reserved", "C28_consume_identifier", "C28_token_identifier", "C33_statement_features", "C33_statements_features", "C33_statement_with", "C33_statements_with", "C33_top", "C33_top_in_script", "C22_mode_partial", "C22_error_free", "C22_refuted", "C50_statement_insert", "C50_statements_insert", "C50_top", "C50_top_in_script", "C50_kept", "C37_recover", "C37_balanced", "C37_recovered", "C37_recovered_trailing", "C37_fails", "C37_reachable", "C37_list", "C21_statement_only", "C21_statements_only", "C21_statement_capitals_partial", "C21_statements_capitals_partial", "C21_consume_keyword", "C21_skip_keyword", "C21_refuted", "C52_statement_unquoted", "C52_statements_unquoted", "C52_statement_only", "C52_statements_only", "C45_statement_leaves", "C45_statements_leaves", "C45_statement_tags", "C45_statements_tags", "C45_statement_values", "C45_statements_values", "C45_statement_names", "C45_statements_names", "C32_statement_partial", "C32_statements_partial", "C32_refuted", "C25_statement_partial", "C25_expression_partial", "C25_parts_partial", "C25_refuted", "C49_in_order", "C49_in_order_no_error", "C49_exception_exists", "C46_statement", "C46_unique", "C47_definition", "C47_script", "C47_function", "C47_dollar_function", "C48_if", "C48_case", "C48_do", "C48_trigger_script", "C48_trigger", "C51_statement", "C51_statement_kind", "C51_malformed_reported", "C51_script", "C51_balanced", "C51_unbalanced_reported", "C51_script_balanced", "C51_not_dangling", "C53_statement", "C53_statements", "C54_statement", "C54_statements"], "tail": ""}
{"id": "m82", "failed": [["KeepDdl.v", "parse_table_option_k"], ["DdlTable.v", "pb_table_option"]], "lost": ["C06_budget_independent", "C07_budget_independent", "C31_script", "C31_correct_script", "C44_with_delimiter_partial", "C44_refuted", "C46_statement", "C46_unique", "C47_definition", "C47_script", "C47_function", "C47_dollar_function", "C48_if", "C48_case", "C48_do", "C48_trigger_script", "C48_trigger", "C53_statement", "C53_statements", "C54_statement", "C54_statements"], "tail": ""}
{"id": "m83", "failed": [["TokRules.v", "pb_string"], ["SafeGo.v", "consume_string_spec"]], "lost": ["C01_statement_spans", "C01_statements_spans", "C01_slicing", "C04_none_means_error", "C05_statement", "C05_statements", "C05_error_free", "C06_statement_terminates", "C07_statements_terminate_partial", "C07_refuted", "C08_statement_panics_partial", "C08_statements_panics_partial", "C08_refuted", "C08_safe_inputs", "C11_statement_no_ice", "C11_statements_no_ice", "C12_statement_numbered", "C12_statements_numbered", "C13_statement_dollar", "C13_statements_dollar", "C29_statement_consumes_all", "C29_statements_consume_all", "C30_statement_block", "C30_statements_block", "C30_resumes", "C36_statement_names", "C36_statements_names", "C19_statement_same_ast", "C19_statements_same_ast", "C20_caps_lint_partial", "C20_caps_lint_statement_partial", "C20_only_lint_issues", "C20_refuted", "C09_query_source", "C09_query_unique", "C34_count", "C34_comma", "C34_offset", "C42_components", "C42_source", "C41_union_partial", "C41_refuted", "C06_budget_independent", "C07_budget_independent", "C31_script", "C31_correct_script", "C44_with_delimiter_partial", "C44_refuted", "C27_statement_reported_partial", "C27_statements_reported_partial", "C27_statement_not_reported", "C27_statements_not_reported", "C27_update_returning", "C27_with", "C27_create_type", "C27_insert_on", "C27_backtick", "C27_opclass", "C27_refuted", "C28_statement_reserved", "C28_statements_reserved", "C28_statement_only_reserved", "C28_statements_only_reserved", "C28_consume_identifier", "C28_token_identifier", "C33_statement_features", "C33_statements_features", "C33_statement_with", "C33_statements_with", "C33_top", "C33_top_in_script", "C22_mode_partial", "C22_error_free", "C22_refuted", "C50_statement_insert", "C50_statements_insert", "C50_top", "C50_top_in_script", "C50_kept", "C37_recover", "C37_balanced", "C37_recovered", "C37_recovered_trailing", "C37_fails", "C37_reachable", "C37_list", "C21_statement_only", "C21_statements_only", "C21_statement_capitals_partial", "C21_statements_capitals_partial", "C21_consume_keyword", "C21_skip_keyword", "C21_refuted", "C52_statement_unquoted", "C52_statements_unquoted", "C52_statement_only", "C52_statements_only", "C45_statement_leaves", "C45_statements_leaves", "C45_statement_tags", "C45_statements_tags", "C45_statement_values", "C45_statements_values", "C45_statement_names", "C45_statements_names", "C32_statement_partial", "C32_statements_partial", "C32_refuted", "C25_statement_partial", "C25_expression_partial", "C25_parts_partial", "C25_refuted", "C49_in_order", "C49_in_order_no_error", "C49_exception_exists", "C46_statement", "C46_unique", "C47_definition", "C47_script", "C47_function", "C47_dollar_function", "C48_if", "C48_case", "C48_do", "C48_trigger_script", "C48_trigger", "C51_statement", "C51_statement_kind", "C51_malformed_reported", "C51_script", "C51_balanced", "C51_unbalanced_reported", "C51_script_balanced", "C51_not_dangling", "C53_statement", "C53_statements", "C54_statement", "C54_statements"], "tail": ""}
{"id": "m84", "failed": [["TokRules.v", "pb_width"], ["SafeSelect.v", "parse_width_spec"], ["KeepQuery.v", "parse_width_k"]], "lost": ["C01_statement_spans", "C01_statements_spans", "C01_slicing", "C04_none_means_error", "C05_statement", "C05_statements", "C05_error_free", "C06_statement_terminates", "C07_statements_terminate_partial", "C07_refuted", "C08_statement_panics_partial", "C08_statements_panics_partial", "C08_refuted", "C08_safe_inputs", "C11_statement_no_ice", "C11_statements_no_ice", "C12_statement_numbered", "C12_statements_numbered", "C13_statement_dollar", "C13_statements_dollar", "C29_statement_consumes_all", "C29_statements_consume_all", "C30_statement_block", "C30_statements_block", "C30_resumes", "C36_statement_names", "C36_statements_names", "C19_statement_same_ast", "C19_statements_same_ast", "C20_caps_lint_partial", "C20_caps_lint_statement_partial", "C20_only_lint_issues", "C20_refuted", "C09_query_source", "C09_query_unique", "C34_count", "C34_comma", "C34_offset", "C42_components", "C42_source", "C41_union_partial", "C41_refuted", "C06_budget_independent", "C07_budget_independent", "C31_script", "C31_correct_script", "C44_with_delimiter_partial", "C44_refuted", "C27_statement_reported_partial", "C27_statements_reported_partial", "C27_statement_not_reported", "C27_statements_not_reported", "C27_update_returning", "C27_with", "C27_create_type", "C27_insert_on", "C27_backtick", "C27_opclass", "C27_refuted", "C28_statement_reserved", "C28_statements_reserved", "C28_statement_only_reserved", "C28_statements_only_reserved", "C28_consume_identifier", "C28_token_identifier", "C33_statement_features", "C33_statements_features", "C33_statement_with", "C33_statements_with", "C33_top", "C33_top_in_script", "C22_mode_partial", "C22_error_free", "C22_refuted", "C50_statement_insert", "C50_statements_insert", "C50_top", "C50_top_in_script", "C50_kept", "C37_recover", "C37_balanced", "C37_recovered", "C37_recovered_trailing", "C37_fails", "C37_reachable", "C37_list", "C21_statement_only", "C21_statements_only", "C21_statement_capitals_partial", "C21_statements_capitals_partial", "C21_consume_keyword", "C21_skip_keyword", "C21_refuted", "C52_statement_unquoted", "C52_statements_unquoted", "C52_statement_only", "C52_statements_only", "C45_statement_leaves", "C45_statements_leaves", "C45_statement_tags", "C45_statements_tags", "C45_statement_values", "C45_statements_values", "C45_statement_names", "C45_statements_names", "C32_statement_partial", "C32_statements_partial", "C32_refuted", "C25_statement_partial", "C25_expression_partial", "C25_parts_partial", "C25_refuted", "C49_in_order", "C49_in_order_no_error", "C49_exception_exists", "C46_statement", "C46_unique", "C47_definition", "C47_script", "C47_function", "C47_dollar_function", "C48_if", "C48_case", "C48_do", "C48_trigger_script", "C48_trigger", "C51_statement", "C51_statement_kind", "C51_malformed_reported", "C51_script", "C51_balanced", "C51_unbalanced_reported", "C51_script_balanced", "C51_not_dangling", "C53_statement", "C53_statements", "C54_statement", "C54_statements"], "tail": ""}
{"id": "m85", "failed": [["KeepQuery.v", "parse_qualified_name_k"], ["GrammarQuery.v", "pa_qname"]], "lost": ["C09_query_source", "C09_query_unique", "C34_count", "C34_comma", "C34_offset", "C42_components", "C42_source", "C41_union_partial", "C41_refuted", "C06_budget_independent", "C07_budget_independent", "C31_script", "C31_correct_script", "C44_with_delimiter_partial", "C44_refuted", "C46_statement", "C46_unique", "C47_definition", "C47_script", "C47_function", "C47_dollar_function", "C48_if", "C48_case", "C48_do", "C48_trigger_script", "C48_trigger", "C53_statement", "C53_statements", "C54_statement", "C54_statements", "C55_statement", "C55_statements"], "tail": ""}
{"id": "m86", "failed": [["KeepQuery.v", "parse_alias_k"], ["GrammarQuery.v", "pa_alias"]], "lost": ["C09_query_source", "C09_query_unique", "C34_count", "C34_comma", "C34_offset", "C42_components", "C42_source", "C41_union_partial", "C41_refuted", "C06_budget_independent", "C07_budget_independent", "C31_script", "C31_correct_script", "C44_with_delimiter_partial", "C44_refuted", "C46_statement", "C46_unique", "C47_definition", "C47_script", "C47_function", "C47_dollar_function", "C48_if", "C48_case", "C48_do", "C48_trigger_script", "C48_trigger", "C53_statement", "C53_statements", "C54_statement", "C54_statements", "C55_statement", "C55_statements"], "tail": ""}
{"id": "m87", "failed": [["SafeExpr.v", "parse_id_parts_spec"], ["GrammarProof.v", "c_name"]], "lost": ["C01_statement_spans", "C01_statements_spans", "C01_slicing", "C04_none_means_error", "C05_statement", "C05_statements", "C05_error_free", "C06_statement_terminates", "C07_statements_terminate_partial", "C07_refuted", "C08_statement_panics_partial", "C08_statements_panics_partial", "C08_refuted", "C08_safe_inputs", "C11_statement_no_ice", "C11_statements_no_ice", "C12_statement_numbered", "C12_statements_numbered", "C13_statement_dollar", "C13_statements_dollar", "C29_statement_consumes_all", "C29_statements_consume_all", "C30_statement_block", "C30_statements_block", "C30_resumes", "C36_statement_names", "C36_statements_names", "C19_statement_same_ast", "C19_statements_same_ast", "C20_caps_lint_partial", "C20_caps_lint_statement_partial", "C20_only_lint_issues", "C20_refuted", "C09_query_source", "C09_query_unique", "C34_count", "C34_comma", "C34_offset", "C42_components", "C42_source", "C41_union_partial", "C41_refuted", "C06_budget_independent", "C07_budget_independent", "C31_script", "C31_correct_script", "C44_with_delimiter_partial", "C44_refuted", "C27_statement_reported_partial", "C27_statements_reported_partial", "C27_statement_not_reported", "C27_statements_not_reported", "C27_update_returning", "C27_with", "C27_create_type", "C27_insert_on", "C27_backtick", "C27_opclass", "C27_refuted", "C28_statement_reserved", "C28_statements_reserved", "C28_statement_only_reserved", "C28_statements_only_reserved", "C28_consume_identifier", "C28_token_identifier", "C33_statement_features", "C33_statements_features", "C33_statement_with", "C33_statements_with", "C33_top", "C33_top_in_script", "C22_mode_partial", "C22_error_free", "C22_refuted", "C50_statement_insert", "C50_statements_insert", "C50_top", "C50_top_in_script", "C50_kept", "C37_recover", "C37_balanced", "C37_recovered", "C37_recovered_trailing", "C37_fails", "C37_reachable", "C37_list", "C21_statement_only", "C21_statements_only", "C21_statement_capitals_partial", "C21_statements_capitals_partial", "C21_consume_keyword", "C21_skip_keyword", "C21_refuted", "C52_statement_unquoted", "C52_statements_unquoted", "C52_statement_only", "C52_statements_only", "C45_statement_leaves", "C45_statements_leaves", "C45_statement_tags", "C45_statements_tags", "C45_statement_values", "C45_statements_values", "C45_statement_names", "C45_statements_names", "C32_statement_partial", "C32_statements_partial", "C32_refuted", "C25_statement_partial", "C25_expression_partial", "C25_parts_partial", "C25_refuted", "C49_in_order", "C49_in_order_no_error", "C49_exception_exists", "C46_statement", "C46_unique", "C47_definition", "C47_script", "C47_function", "C47_dollar_function", "C48_if", "C48_case", "C48_do", "C48_trigger_script", "C48_trigger", "C51_statement", "C51_statement_kind", "C51_malformed_reported", "C51_script", "C51_balanced", "C51_unbalanced_reported", "C51_script_balanced", "C51_not_dangling", "C53_statement", "C53_statements", "C54_statement", "C54_statements", "C55_statement", "C55_statements"], "tail": ""}
{"id": "m88", "failed": [["AcceptExpr.v", "c_variable"], ["SafeExpr.v", "step_variable_spec"], ["GrammarOps.v", "c_variable"]], "lost": ["C01_statement_spans", "C01_statements_spans", "C01_slicing", "C04_none_means_error", "C05_statement", "C05_statements", "C05_error_free", "C06_statement_terminates", "C07_statements_terminate_partial", "C07_refuted", "C08_statement_panics_partial", "C08_statements_panics_partial", "C08_refuted", "C08_safe_inputs", "C11_statement_no_ice", "C11_statements_no_ice", "C12_statement_numbered", "C12_statements_numbered", "C13_statement_dollar", "C13_statements_dollar", "C29_statement_consumes_all", "C29_statements_consume_all", "C30_statement_block", "C30_statements_block", "C30_resumes", "C36_statement_names", "C36_statements_names", "C19_statement_same_ast", "C19_statements_same_ast", "C20_caps_lint_partial", "C20_caps_lint_statement_partial", "C20_only_lint_issues", "C20_refuted", "C09_query_source", "C09_query_unique", "C34_count", "C34_comma", "C34_offset", "C42_components", "C42_source", "C41_union_partial", "C41_refuted", "C06_budget_independent", "C07_budget_independent", "C31_script", "C31_correct_script", "C44_with_delimiter_partial", "C44_refuted", "C27_statement_reported_partial", "C27_statements_reported_partial", "C27_statement_not_reported", "C27_statements_not_reported", "C27_update_returning", "C27_with", "C27_create_type", "C27_insert_on", "C27_backtick", "C27_opclass", "C27_refuted", "C28_statement_reserved", "C28_statements_reserved", "C28_statement_only_reserved", "C28_statements_only_reserved", "C28_consume_identifier", "C28_token_identifier", "C33_statement_features", "C33_statements_features", "C33_statement_with", "C33_statements_with", "C33_top", "C33_top_in_script", "C22_mode_partial", "C22_error_free", "C22_refuted", "C50_statement_insert", "C50_statements_insert", "C50_top", "C50_top_in_script", "C50_kept", "C37_recover", "C37_balanced", "C37_recovered", "C37_recovered_trailing", "C37_fails", "C37_reachable", "C37_list", "C21_statement_only", "C21_statements_only", "C21_statement_capitals_partial", "C21_statements_capitals_partial", "C21_consume_keyword", "C21_skip_keyword", "C21_refuted", "C52_statement_unquoted", "C52_statements_unquoted", "C52_statement_only", "C52_statements_only", "C45_statement_leaves", "C45_statements_leaves", "C45_statement_tags", "C45_statements_tags", "C45_statement_values", "C45_statements_values", "C45_statement_names", "C45_statements_names", "C32_statement_partial", "C32_statements_partial", "C32_refuted", "C25_statement_partial", "C25_expression_partial", "C25_parts_partial", "C25_refuted", "C49_in_order", "C49_in_order_no_error", "C49_exception_exists", "C46_statement", "C46_unique", "C47_definition", "C47_script", "C47_function", "C47_dollar_function", "C48_if", "C48_case", "C48_do", "C48_trigger_script", "C48_trigger", "C51_statement", "C51_statement_kind", "C51_malformed_reported", "C51_script", "C51_balanced", "C51_unbalanced_reported", "C51_script_balanced", "C51_not_dangling", "C53_statement", "C53_statements", "C54_statement", "C54_statements", "C55_statement", "C55_statements"], "tail": ""}
{"id": "m89", "failed": [["SafeDml.v", "parse_cols_spec"], ["KeepDdl.v", "parse_cols_k"], ["DdlTable.v", "pb_cols"]], "lost": ["C01_statement_spans", "C01_statements_spans", "C01_slicing", "C04_none_means_error", "C05_statement", "C05_statements", "C05_error_free", "C06_statement_terminates", "C07_statements_terminate_partial", "C07_refuted", "C08_statement_panics_partial", "C08_statements_panics_partial", "C08_refuted", "C08_safe_inputs", "C11_statement_no_ice", "C11_statements_no_ice", "C12_statement_numbered", "C12_statements_numbered", "C13_statement_dollar", "C13_statements_dollar", "C29_statement_consumes_all", "C29_statements_consume_all", "C30_statement_block", "C30_statements_block", "C30_resumes", "C36_statement_names", "C36_statements_names", "C19_statement_same_ast", "C19_statements_same_ast", "C20_caps_lint_partial", "C20_caps_lint_statement_partial", "C20_only_lint_issues", "C20_refuted", "C06_budget_independent", "C07_budget_independent", "C31_script", "C31_correct_script", "C44_with_delimiter_partial", "C44_refuted", "C27_statement_reported_partial", "C27_statements_reported_partial", "C27_statement_not_reported", "C27_statements_not_reported", "C27_update_returning", "C27_with", "C27_create_type", "C27_insert_on", "C27_backtick", "C27_opclass", "C27_refuted", "C28_statement_reserved", "C28_statements_reserved", "C28_statement_only_reserved", "C28_statements_only_reserved", "C28_consume_identifier", "C28_token_identifier", "C33_statement_features", "C33_statements_features", "C33_statement_with", "C33_statements_with", "C33_top", "C33_top_in_script", "C22_mode_partial", "C22_error_free", "C22_refuted", "C50_statement_insert", "C50_statements_insert", "C50_top", "C50_top_in_script", "C50_kept", "C37_recover", "C37_balanced", "C37_recovered", "C37_recovered_trailing", "C37_fails", "C37_reachable", "C37_list", "C21_statement_only", "C21_statements_only", "C21_statement_capitals_partial", "C21_statements_capitals_partial", "C21_consume_keyword", "C21_skip_keyword", "C21_refuted", "C52_statement_unquoted", "C52_statements_unquoted", "C52_statement_only", "C52_statements_only", "C45_statement_leaves", "C45_statements_leaves", "C45_statement_tags", "C45_statements_tags", "C45_statement_values", "C45_statements_values", "C45_statement_names", "C45_statements_names", "C32_statement_partial", "C32_statements_partial", "C32_refuted", "C25_statement_partial", "C25_expression_partial", "C25_parts_partial", "C25_refuted", "C49_in_order", "C49_in_order_no_error", "C49_exception_exists", "C46_statement", "C46_unique", "C47_definition", "C47_script", "C47_function", "C47_dollar_function", "C48_if", "C48_case", "C48_do", "C48_trigger_script", "C48_trigger", "C51_statement", "C51_statement_kind", "C51_malformed_reported", "C51_script", "C51_balanced", "C51_unbalanced_reported", "C51_script_balanced", "C51_not_dangling", "C53_statement", "C53_statements", "C54_statement", "C54_statements", "C55_statement", "C55_statements"], "tail": ""}
{"id": "m90", "failed": [["TokRules.v", "pb_hint"], ["KeepQuery.v", "parse_index_hint_k"]], "lost": ["C09_query_source", "C09_query_unique", "C34_count", "C34_comma", "C34_offset", "C42_components", "C42_source", "C41_union_partial", "C41_refuted", "C06_budget_independent", "C07_budget_independent", "C31_script", "C31_correct_script", "C44_with_delimiter_partial", "C44_refuted", "C46_statement", "C46_unique", "C47_definition", "C47_script", "C47_function", "C47_dollar_function", "C48_if", "C48_case", "C48_do", "C48_trigger_script", "C48_trigger", "C53_statement", "C53_statements", "C54_statement", "C54_statements", "C55_statement", "C55_statements"], "tail": ""}
{"id": "m91", "failed": [["AcceptQuery.v", "c_alias"], ["LaySelect.v", "parse_alias_l"], ["GrammarQuery.v", "pa_alias"]], "lost": ["C09_query_source", "C09_query_unique", "C34_count", "C34_comma", "C34_offset", "C42_components", "C42_source", "C41_union_partial", "C41_refuted", "C06_budget_independent", "C07_budget_independent", "C31_script", "C31_correct_script", "C44_with_delimiter_partial", "C44_refuted", "C46_statement", "C46_unique", "C47_definition", "C47_script", "C47_function", "C47_dollar_function", "C48_if", "C48_case", "C48_do", "C48_trigger_script", "C48_trigger", "C51_statement", "C51_statement_kind", "C51_malformed_reported", "C51_script", "C51_balanced", "C51_unbalanced_reported", "C51_script_balanced", "C51_not_dangling", "C53_statement", "C53_statements", "C54_statement", "C54_statements", "C55_statement", "C55_statements", "C56_statement", "C56_statement_back", "C56_statements", "C56_statements_back", "C56_layouts", "C56_same_tokens", "C56_same_tokens_script", "C56_insert_statement", "C56_insert_statements", "C56_statement_same_tree", "C56_statements_same_tree"], "tail": ""}
{"id": "m93", "failed": [["PropsBasic.v", "C24_join_is_hull"], ["SafeLogic.v", "wspan_join"], ["Layout.v", "lf_join"]], "lost": ["C24_join_is_hull", "C24_join_comm_assoc_idem", "C24_optional", "C24_list_is_hull", "C24_list_order_irrelevant", "C39_defaults", "C39_each_sets_its_own", "C39_extensional", "C39_commute_and_last_wins", "C14_decode_single", "C14_consumed_value", "C14_decode_single_id", "C15_refuted", "C15_never_undoubled", "C15_plain_partial", "C23_exact_or_error", "C23_decimal", "C26_line", "C26_display_never_panics", "C26_printed", "C26_number", "C26_is_ok", "C38_eq_ignores_span", "C38_order_total_and_consistent", "C38_borrow_consistent", "C01_statement_spans", "C01_statements_spans", "C01_slicing", "C04_none_means_error", "C05_statement", "C05_statements", "C05_error_free", "C06_statement_terminates", "C07_statements_terminate_partial", "C07_refuted", "C08_statement_panics_partial", "C08_statements_panics_partial", "C08_refuted", "C08_safe_inputs", "C11_statement_no_ice", "C11_statements_no_ice", "C12_statement_numbered", "C12_statements_numbered", "C13_statement_dollar", "C13_statements_dollar", "C29_statement_consumes_all", "C29_statements_consume_all", "C30_statement_block", "C30_statements_block", "C30_resumes", "C36_statement_names", "C36_statements_names", "C19_statement_same_ast", "C19_statements_same_ast", "C20_caps_lint_partial", "C20_caps_lint_statement_partial", "C20_only_lint_issues", "C20_refuted", "C06_budget_independent", "C07_budget_independent", "C31_script", "C31_correct_script", "C44_with_delimiter_partial", "C44_refuted", "C27_statement_reported_partial", "C27_statements_reported_partial", "C27_statement_not_reported", "C27_statements_not_reported", "C27_update_returning", "C27_with", "C27_create_type", "C27_insert_on", "C27_backtick", "C27_opclass", "C27_refuted", "C28_statement_reserved", "C28_statements_reserved", "C28_statement_only_reserved", "C28_statements_only_reserved", "C28_consume_identifier", "C28_token_identifier", "C33_statement_features", "C33_statements_features", "C33_statement_with", "C33_statements_with", "C33_top", "C33_top_in_script", "C22_mode_partial", "C22_error_free", "C22_refuted", "C50_statement_insert", "C50_statements_insert", "C50_top", "C50_top_in_script", "C50_kept", "C37_recover", "C37_balanced", "C37_recovered", "C37_recovered_trailing", "C37_fails", "C37_reachable", "C37_list", "C21_statement_only", "C21_statements_only", "C21_statement_capitals_partial", "C21_statements_capitals_partial", "C21_consume_keyword", "C21_skip_keyword", "C21_refuted", "C52_statement_unquoted", "C52_statements_unquoted", "C52_statement_only", "C52_statements_only", "C45_statement_leaves", "C45_statements_leaves", "C45_statement_tags", "C45_statements_tags", "C45_statement_values", "C45_statements_values", "C45_statement_names", "C45_statements_names", "C32_statement_partial", "C32_statements_partial", "C32_refuted", "C25_statement_partial", "C25_expression_partial", "C25_parts_partial", "C25_refuted", "C49_in_order", "C49_in_order_no_error", "C49_exception_exists", "C46_statement", "C46_unique", "C47_definition", "C47_script", "C47_function", "C47_dollar_function", "C48_if", "C48_case", "C48_do", "C48_trigger_script", "C48_trigger", "C51_statement", "C51_statement_kind", "C51_malformed_reported", "C51_script", "C51_balanced", "C51_unbalanced_reported", "C51_script_balanced", "C51_not_dangling", "C53_statement", "C53_statements", "C54_statement", "C54_statements", "C55_statement", "C55_statements", "C56_statement", "C56_statement_back", "C56_statements", "C56_statements_back", "C56_layouts", "C56_same_tokens", "C56_same_tokens_script", "C56_insert_statement", "C56_insert_statements", "C56_statement_same_tree", "C56_statements_same_tree"], "tail": ""}
{"id": "m94", "failed": [["SafeTac.v", "consume_keyword_spec"], ["LayGo.v", "consume_keyword_l"]], "lost": ["C01_statement_spans", "C01_statements_spans", "C01_slicing", "C04_none_means_error", "C05_statement", "C05_statements", "C05_error_free", "C06_statement_terminates", "C07_statements_terminate_partial", "C07_refuted", "C08_statement_panics_partial", "C08_statements_panics_partial", "C08_refuted", "C08_safe_inputs", "C11_statement_no_ice", "C11_statements_no_ice", "C12_statement_numbered", "C12_statements_numbered", "C13_statement_dollar", "C13_statements_dollar", "C29_statement_consumes_all", "C29_statements_consume_all", "C30_statement_block", "C30_statements_block", "C30_resumes", "C36_statement_names", "C36_statements_names", "C19_statement_same_ast", "C19_statements_same_ast", "C20_caps_lint_partial", "C20_caps_lint_statement_partial", "C20_only_lint_issues", "C20_refuted", "C06_budget_independent", "C07_budget_independent", "C31_script", "C31_correct_script", "C44_with_delimiter_partial", "C44_refuted", "C27_statement_reported_partial", "C27_statements_reported_partial", "C27_statement_not_reported", "C27_statements_not_reported", "C27_update_returning", "C27_with", "C27_create_type", "C27_insert_on", "C27_backtick", "C27_opclass", "C27_refuted", "C28_statement_reserved", "C28_statements_reserved", "C28_statement_only_reserved", "C28_statements_only_reserved", "C28_consume_identifier", "C28_token_identifier", "C33_statement_features", "C33_statements_features", "C33_statement_with", "C33_statements_with", "C33_top", "C33_top_in_script", "C22_mode_partial", "C22_error_free", "C22_refuted", "C50_statement_insert", "C50_statements_insert", "C50_top", "C50_top_in_script", "C50_kept", "C37_recover", "C37_balanced", "C37_recovered", "C37_recovered_trailing", "C37_fails", "C37_reachable", "C37_list", "C21_statement_only", "C21_statements_only", "C21_statement_capitals_partial", "C21_statements_capitals_partial", "C21_consume_keyword", "C21_skip_keyword", "C21_refuted", "C52_statement_unquoted", "C52_statements_unquoted", "C52_statement_only", "C52_statements_only", "C45_statement_leaves", "C45_statements_leaves", "C45_statement_tags", "C45_statements_tags", "C45_statement_values", "C45_statements_values", "C45_statement_names", "C45_statements_names", "C32_statement_partial", "C32_statements_partial", "C32_refuted", "C25_statement_partial", "C25_expression_partial", "C25_parts_partial", "C25_refuted", "C49_in_order", "C49_in_order_no_error", "C49_exception_exists", "C46_statement", "C46_unique", "C47_definition", "C47_script", "C47_function", "C47_dollar_function", "C48_if", "C48_case", "C48_do", "C48_trigger_script", "C48_trigger", "C51_statement", "C51_statement_kind", "C51_malformed_reported", "C51_script", "C51_balanced", "C51_unbalanced_reported", "C51_script_balanced", "C51_not_dangling", "C53_statement", "C53_statements", "C54_statement", "C54_statements", "C55_statement", "C55_statements", "C56_statement", "C56_statement_back", "C56_statements", "C56_statements_back", "C56_layouts", "C56_same_tokens", "C56_same_tokens_script", "C56_insert_statement", "C56_insert_statements", "C56_statement_same_tree", "C56_statements_same_tree"], "tail": ""}
{"id": "m95", "failed": [["KeepQuery.v", "parse_limit_k"], ["GrammarQuery.v", "c_limit_comma"]], "lost": ["C09_query_source", "C09_query_unique", "C34_count", "C34_comma", "C34_offset", "C42_components", "C42_source", "C41_union_partial", "C41_refuted", "C06_budget_independent", "C07_budget_independent", "C31_script", "C31_correct_script", "C44_with_delimiter_partial", "C44_refuted", "C46_statement", "C46_unique", "C47_definition", "C47_script", "C47_function", "C47_dollar_function", "C48_if", "C48_case", "C48_do", "C48_trigger_script", "C48_trigger", "C53_statement", "C53_statements", "C54_statement", "C54_statements", "C55_statement", "C55_statements", "C56_statement", "C56_statement_back", "C56_statements", "C56_statements_back", "C56_layouts", "C56_same_tokens", "C56_same_tokens_script", "C56_insert_statement", "C56_insert_statements", "C56_statement_same_tree", "C56_statements_same_tree"], "tail": ""}
{"id": "m96", "failed": [["AcceptTac.v", "c_qualified"], ["LayDataType.v", "parse_qualified_name_l"], ["GrammarQuery.v", "pa_qname"]], "lost": ["C09_query_source", "C09_query_unique", "C34_count", "C34_comma", "C34_offset", "C42_components", "C42_source", "C41_union_partial", "C41_refuted", "C06_budget_independent", "C07_budget_independent", "C31_script", "C31_correct_script", "C44_with_delimiter_partial", "C44_refuted", "C46_statement", "C46_unique", "C47_definition", "C47_script", "C47_function", "C47_dollar_function", "C48_if", "C48_case", "C48_do", "C48_trigger_script", "C48_trigger", "C51_statement", "C51_statement_kind", "C51_malformed_reported", "C51_script", "C51_balanced", "C51_unbalanced_reported", "C51_script_balanced", "C51_not_dangling", "C53_statement", "C53_statements", "C54_statement", "C54_statements", "C55_statement", "C55_statements", "C56_statement", "C56_statement_back", "C56_statements", "C56_statements_back", "C56_layouts", "C56_same_tokens", "C56_same_tokens_script", "C56_insert_statement", "C56_insert_statements", "C56_statement_same_tree", "C56_statements_same_tree"], "tail": ""}
{"id": "m97", "failed": [["Grammar.v", "func_facts"], ["SafeExpr.v", "function_of_spec"], ["LayExpr.v", "function_of_l"]], "lost": ["C01_statement_spans", "C01_statements_spans", "C01_slicing", "C04_none_means_error", "C05_statement", "C05_statements", "C05_error_free", "C06_statement_terminates", "C07_statements_terminate_partial", "C07_refuted", "C08_statement_panics_partial", "C08_statements_panics_partial", "C08_refuted", "C08_safe_inputs", "C11_statement_no_ice", "C11_statements_no_ice", "C12_statement_numbered", "C12_statements_numbered", "C13_statement_dollar", "C13_statements_dollar", "C29_statement_consumes_all", "C29_statements_consume_all", "C30_statement_block", "C30_statements_block", "C30_resumes", "C36_statement_names", "C36_statements_names", "C19_statement_same_ast", "C19_statements_same_ast", "C20_caps_lint_partial", "C20_caps_lint_statement_partial", "C20_only_lint_issues", "C20_refuted", "C09_query_source", "C09_query_unique", "C34_count", "C34_comma", "C34_offset", "C42_components", "C42_source", "C41_union_partial", "C41_refuted", "C06_budget_independent", "C07_budget_independent", "C31_script", "C31_correct_script", "C44_with_delimiter_partial", "C44_refuted", "C27_statement_reported_partial", "C27_statements_reported_partial", "C27_statement_not_reported", "C27_statements_not_reported", "C27_update_returning", "C27_with", "C27_create_type", "C27_insert_on", "C27_backtick", "C27_opclass", "C27_refuted", "C28_statement_reserved", "C28_statements_reserved", "C28_statement_only_reserved", "C28_statements_only_reserved", "C28_consume_identifier", "C28_token_identifier", "C33_statement_features", "C33_statements_features", "C33_statement_with", "C33_statements_with", "C33_top", "C33_top_in_script", "C22_mode_partial", "C22_error_free", "C22_refuted", "C50_statement_insert", "C50_statements_insert", "C50_top", "C50_top_in_script", "C50_kept", "C37_recover", "C37_balanced", "C37_recovered", "C37_recovered_trailing", "C37_fails", "C37_reachable", "C37_list", "C21_statement_only", "C21_statements_only", "C21_statement_capitals_partial", "C21_statements_capitals_partial", "C21_consume_keyword", "C21_skip_keyword", "C21_refuted", "C52_statement_unquoted", "C52_statements_unquoted", "C52_statement_only", "C52_statements_only", "C45_statement_leaves", "C45_statements_leaves", "C45_statement_tags", "C45_statements_tags", "C45_statement_values", "C45_statements_values", "C45_statement_names", "C45_statements_names", "C32_statement_partial", "C32_statements_partial", "C32_refuted", "C25_statement_partial", "C25_expression_partial", "C25_parts_partial", "C25_refuted", "C49_in_order", "C49_in_order_no_error", "C49_exception_exists", "C46_statement", "C46_unique", "C47_definition", "C47_script", "C47_function", "C47_dollar_function", "C48_if", "C48_case", "C48_do", "C48_trigger_script", "C48_trigger", "C51_statement", "C51_statement_kind", "C51_malformed_reported", "C51_script", "C51_balanced", "C51_unbalanced_reported", "C51_script_balanced", "C51_not_dangling", "C53_statement", "C53_statements", "C54_statement", "C54_statements", "C55_statement", "C55_statements", "C56_statement", "C56_statement_back", "C56_statements", "C56_statements_back", "C56_positions", "C56_layouts", "C56_same_tokens", "C56_same_tokens_script", "C56_insert_statement", "C56_insert_statements", "C56_statement_same_tree", "C56_statements_same_tree", "C57_statement", "C57_statements", "C57_same_tokens", "C57_same_tokens_script", "C57_statement_in_place", "C57_statements_in_place"], "tail": ""}
{"id": "m98", "failed": [["SafeTac.v", "token_to_plain_identifier_spec"], ["Grammar.v", "word_facts"], ["LayGo.v", "token_to_plain_identifier_l"], ["AcceptExpr.v", "plain_of"]], "lost": ["C01_statement_spans", "C01_statements_spans", "C01_slicing", "C04_none_means_error", "C05_statement", "C05_statements", "C05_error_free", "C06_statement_terminates", "C07_statements_terminate_partial", "C07_refuted", "C08_statement_panics_partial", "C08_statements_panics_partial", "C08_refuted", "C08_safe_inputs", "C11_statement_no_ice", "C11_statements_no_ice", "C12_statement_numbered", "C12_statements_numbered", "C13_statement_dollar", "C13_statements_dollar", "C29_statement_consumes_all", "C29_statements_consume_all", "C30_statement_block", "C30_statements_block", "C30_resumes", "C36_statement_names", "C36_statements_names", "C19_statement_same_ast", "C19_statements_same_ast", "C20_caps_lint_partial", "C20_caps_lint_statement_partial", "C20_only_lint_issues", "C20_refuted", "C09_query_source", "C09_query_unique", "C34_count", "C34_comma", "C34_offset", "C42_components", "C42_source", "C41_union_partial", "C41_refuted", "C06_budget_independent", "C07_budget_independent", "C31_script", "C31_correct_script", "C44_with_delimiter_partial", "C44_refuted", "C27_statement_reported_partial", "C27_statements_reported_partial", "C27_statement_not_reported", "C27_statements_not_reported", "C27_update_returning", "C27_with", "C27_create_type", "C27_insert_on", "C27_backtick", "C27_opclass", "C27_refuted", "C28_statement_reserved", "C28_statements_reserved", "C28_statement_only_reserved", "C28_statements_only_reserved", "C28_consume_identifier", "C28_token_identifier", "C33_statement_features", "C33_statements_features", "C33_statement_with", "C33_statements_with", "C33_top", "C33_top_in_script", "C22_mode_partial", "C22_error_free", "C22_refuted", "C50_statement_insert", "C50_statements_insert", "C50_top", "C50_top_in_script", "C50_kept", "C37_recover", "C37_balanced", "C37_recovered", "C37_recovered_trailing", "C37_fails", "C37_reachable", "C37_list", "C21_statement_only", "C21_statements_only", "C21_statement_capitals_partial", "C21_statements_capitals_partial", "C21_consume_keyword", "C21_skip_keyword", "C21_refuted", "C52_statement_unquoted", "C52_statements_unquoted", "C52_statement_only", "C52_statements_only", "C45_statement_leaves", "C45_statements_leaves", "C45_statement_tags", "C45_statements_tags", "C45_statement_values", "C45_statements_values", "C45_statement_names", "C45_statements_names", "C32_statement_partial", "C32_statements_partial", "C32_refuted", "C25_statement_partial", "C25_expression_partial", "C25_parts_partial", "C25_refuted", "C49_in_order", "C49_in_order_no_error", "C49_exception_exists", "C46_statement", "C46_unique", "C47_definition", "C47_script", "C47_function", "C47_dollar_function", "C48_if", "C48_case", "C48_do", "C48_trigger_script", "C48_trigger", "C51_statement", "C51_statement_kind", "C51_malformed_reported", "C51_script", "C51_balanced", "C51_unbalanced_reported", "C51_script_balanced", "C51_not_dangling", "C53_statement", "C53_statements", "C54_statement", "C54_statements", "C55_statement", "C55_statements", "C56_statement", "C56_statement_back", "C56_statements", "C56_statements_back", "C56_positions", "C56_layouts", "C56_same_tokens", "C56_same_tokens_script", "C56_insert_statement", "C56_insert_statements", "C56_statement_same_tree", "C56_statements_same_tree", "C57_statement", "C57_statements", "C57_same_tokens", "C57_same_tokens_script", "C57_statement_in_place", "C57_statements_in_place"], "tail": ""}
