{
 "claims": [
  {
   "property": "C01",
   "status": "proved",
   "theorems": [
    "C01_statement_spans",
    "C01_statements_spans",
    "C01_slicing"
   ],
   "note": "The AST is traversed generically (spans_in); every span of every node is covered, including spans of identifiers, arguments and Invalid nodes."
  },
  {
   "property": "C02",
   "status": "proved",
   "theorems": [
    "C02_statement_segments",
    "C02_statements_segments"
   ],
   "note": ""
  },
  {
   "property": "C03",
   "status": "proved",
   "theorems": [
    "C03_statement_appends",
    "C03_statements_append"
   ],
   "note": ""
  },
  {
   "property": "C04",
   "status": "proved",
   "theorems": [
    "C04_none_means_error"
   ],
   "note": ""
  },
  {
   "property": "C05",
   "status": "proved",
   "theorems": [
    "C05_statement",
    "C05_statements",
    "C05_error_free"
   ],
   "note": ""
  },
  {
   "property": "C06",
   "status": "proved",
   "theorems": [
    "C06_statement_terminates",
    "C06_budget_independent"
   ],
   "note": "Any budget >= length + 2 suffices, for nesting depth and for every loop. C06_budget_independent: the result does not depend on the model's budget."
  },
  {
   "property": "C07",
   "status": "partial",
   "theorems": [
    "C07_statements_terminate_partial",
    "C07_refuted",
    "C07_budget_independent"
   ],
   "note": "False of the code: DELIMITER at the end of the input loops for ever (C07_refuted: for every budget). C07_statements_terminate_partial: everything else terminates."
  },
  {
   "property": "C08",
   "status": "partial",
   "theorems": [
    "C08_statement_panics_partial",
    "C08_statements_panics_partial",
    "C08_refuted",
    "C08_safe_inputs"
   ],
   "note": "False of the code: three panics remain and each is exhibited (C08_refuted). The _partial theorems: no other panic, and each of the three needs its trigger text in the source."
  },
  {
   "property": "C09",
   "status": "proved",
   "theorems": [
    "C09_result_is_grouped",
    "C09_grouped_is_result",
    "C09_grouping_unique",
    "C09_query_source",
    "C09_query_unique"
   ],
   "note": "For every state and operand (C09_result_is_grouped, C09_grouped_is_result); for sources: every query of the token grammar in GrammarSpec.v (all operand forms, ?/%s arguments numbered in the order they are written included, except the _LIST_ hack: CAST with types, aggregates, windows, intervals, TIMESTAMPADD, EXTRACT, variables, CASE, subqueries; joins, index hints, WINDOW, locking) is accepted without issues and returned (C09_query_source)."
  },
  {
   "property": "C10",
   "status": "partial",
   "theorems": [
    "C10_refuted",
    "C10_refuted_source",
    "C10_parentheses_partial"
   ],
   "note": "False of the code: without parentheses a OR b AND c is parsed as (a OR b) AND c for all operands (C10_refuted, C10_refuted_source on a concrete text). C10_parentheses_partial is what is left."
  },
  {
   "property": "C11",
   "status": "proved",
   "theorems": [
    "C11_statement_no_ice",
    "C11_statements_no_ice"
   ],
   "note": ""
  },
  {
   "property": "C12",
   "status": "proved",
   "theorems": [
    "C12_statement_numbered",
    "C12_statements_numbered"
   ],
   "note": "Placeholders consumed but dropped from the AST (error recovery) also take a number, so the numbers in the AST may have gaps; they are positions in the sequence of consumed placeholders."
  },
  {
   "property": "C13",
   "status": "proved",
   "theorems": [
    "C13_statement_dollar",
    "C13_statements_dollar"
   ],
   "note": ""
  },
  {
   "property": "C14",
   "status": "proved",
   "theorems": [
    "C14_lexed_as_one_token",
    "C14_decode_single",
    "C14_consumed_value",
    "C14_decode_single_id"
   ],
   "note": "Lexing, decoding and consumption of one literal; t ranges over all texts (also with backslashes)."
  },
  {
   "property": "C15",
   "status": "partial",
   "theorems": [
    "C15_refuted",
    "C15_never_undoubled",
    "C15_plain_partial"
   ],
   "note": "False of the code: the decoder undoubles single quotes (src/parser.rs). C15_refuted gives the counterexample, C15_never_undoubled shows it fails for every text with a double quote and no single quote, C15_plain_partial is what holds."
  },
  {
   "property": "C16",
   "status": "proved",
   "theorems": [
    "C16_case_insensitive",
    "C16_every_case"
   ],
   "note": "One exception is inherent in the lexer and stated: the single letter s directly after % (the %s argument)."
  },
  {
   "property": "C17",
   "status": "proved",
   "theorems": [
    "C17_quoted_is_not_a_keyword",
    "C17_only_quoted"
   ],
   "note": ""
  },
  {
   "property": "C18",
   "status": "proved",
   "theorems": [
    "C18_insert_trivia",
    "C18_insert_white"
   ],
   "note": "Trivia may be inserted at any token boundary except directly after a - or / token it would glue to (C18_exception)."
  },
  {
   "property": "C19",
   "status": "proved",
   "theorems": [
    "C19_statement_same_ast",
    "C19_statements_same_ast"
   ],
   "note": ""
  },
  {
   "property": "C20",
   "status": "partial",
   "theorems": [
    "C20_caps_lint_partial",
    "C20_caps_lint_statement_partial",
    "C20_only_lint_issues",
    "C20_refuted"
   ],
   "note": "False of the code: the lint for unquoted identifiers reports at level Error when the identifier is consumed as a plain identifier (C20_refuted). The capitalisation lint adds only warnings (C20_caps_lint_partial), and with both lints the issues are those without lints plus lint issues."
  },
  {
   "property": "C21",
   "status": "partial",
   "theorems": [
    "C21_statement_only",
    "C21_statements_only",
    "C21_statement_capitals_partial",
    "C21_statements_capitals_partial",
    "C21_consume_keyword",
    "C21_skip_keyword",
    "C21_refuted"
   ],
   "note": "False of the code in both directions (C21_refuted): AUTO_INCREMENT in capitals is warned about because of the underscore, and word operators such as 'or' are consumed without the check. Proved for every source: every such warning is about a keyword standing there that is not made of capital letters only (C21_statement(s)_only, ..._capitals_partial), and consume_keyword/skip_keyword warn exactly when they should."
  },
  {
   "property": "C22",
   "status": "partial",
   "theorems": [
    "C22_mode_partial",
    "C22_error_free",
    "C22_refuted"
   ],
   "note": "False of the code: the flag that makes BEGIN/END compound is not restored when a CREATE TRIGGER fails (C22_refuted). Proved: the mode is the initial one before every statement if the word TRIGGER does not occur (C22_mode_partial) or if no Error is reported (C22_error_free), for every source."
  },
  {
   "property": "C23",
   "status": "proved",
   "theorems": [
    "C23_exact_or_error",
    "C23_decimal"
   ],
   "note": ""
  },
  {
   "property": "C24",
   "status": "proved",
   "theorems": [
    "C24_join_is_hull",
    "C24_join_comm_assoc_idem",
    "C24_optional",
    "C24_list_is_hull",
    "C24_list_order_irrelevant"
   ],
   "note": ""
  },
  {
   "property": "C25",
   "status": "partial",
   "theorems": [
    "C25_statement_partial",
    "C25_expression_partial",
    "C25_parts_partial",
    "C25_refuted"
   ],
   "note": "False as stated (C25_refuted: SELECT .. FOR UPDATE, DROP TABLE .. CASCADE: span() leaves the clause out). Proved for every AST value, reachable or not, and at every depth: a stored span is inside the node's span or is stored in one of six fields left out by five types (Select.locking, DropTable.cascade, CreateIndex.if_not_exists, CreateFunction.params/.returns, InsertReplace.columns); the computed span of any part is inside the node's span when nothing is left out. Missing: that the last four lie inside by position for parsed text."
  },
  {
   "property": "C26",
   "status": "proved",
   "theorems": [
    "C26_line",
    "C26_display_never_panics",
    "C26_printed",
    "C26_number",
    "C26_is_ok"
   ],
   "note": ""
  },
  {
   "property": "C27",
   "status": "partial",
   "theorems": [
    "C27_statement_reported_partial",
    "C27_statements_reported_partial",
    "C27_statement_not_reported",
    "C27_statements_not_reported",
    "C27_update_returning",
    "C27_with",
    "C27_create_type",
    "C27_insert_on",
    "C27_backtick",
    "C27_opclass",
    "C27_refuted"
   ],
   "note": "For every source and every feature of Ast.v (RETURNING of UPDATE, WITH, CREATE TYPE, ON DUPLICATE/CONFLICT, index hints, locks, ...): reported iff the dialect lacks it, as Error, at its place. Backtick names and operator classes where they are read (C27_backtick, C27_opclass); the first part of a name in an expression is not checked in PostgreSQL (C27_refuted)."
  },
  {
   "property": "C28",
   "status": "proved",
   "theorems": [
    "C28_statement_reserved",
    "C28_statements_reserved",
    "C28_statement_only_reserved",
    "C28_statements_only_reserved",
    "C28_consume_identifier",
    "C28_token_identifier"
   ],
   "note": "Every name in the AST (C28_statement(s)_reserved), the converse (..._only_reserved) and every place a name is read (C28_consume_identifier, C28_token_identifier)."
  },
  {
   "property": "C29",
   "status": "proved",
   "theorems": [
    "C29_statement_consumes_all",
    "C29_statements_consume_all"
   ],
   "note": ""
  },
  {
   "property": "C30",
   "status": "proved",
   "theorems": [
    "C30_statement_block",
    "C30_statements_block",
    "C30_resumes"
   ],
   "note": ""
  },
  {
   "property": "C31",
   "status": "proved",
   "theorems": [
    "C31_script",
    "C31_correct_script"
   ],
   "note": "Scripts over the statements of the token grammar (queries, data statements, WITH, DROP, RENAME, TRUNCATE, SIGNAL, SET and transaction statements: stmt_is) with any number of DELIMITER ; / DELIMITER $$ commands: split exactly at the delimiter in force; the other delimiter is reported as an Error and skipped over. Other tokens as delimiter (accepted with a warning) are not covered by the grammar."
  },
  {
   "property": "C32",
   "status": "partial",
   "theorems": [
    "C32_statement_partial",
    "C32_statements_partial",
    "C32_refuted"
   ],
   "note": "False of the code (C32_refuted): NO ACTION is returned as SetNull, SET DEFAULT is rejected, UNIQUE and SPATIAL indexes are returned as FullText. C32_statement(s)_partial: apart from exactly these rows every action and index kind of every ALTER TABLE statement is returned as written. Missing: that every written form is accepted (SET DEFAULT is not)."
  },
  {
   "property": "C33",
   "status": "proved",
   "theorems": [
    "C33_statement_features",
    "C33_statements_features",
    "C33_statement_with",
    "C33_statements_with",
    "C33_top",
    "C33_top_in_script"
   ],
   "note": "Every WITH query occurring anywhere in the result of an error-free parse."
  },
  {
   "property": "C34",
   "status": "proved",
   "theorems": [
    "C34_count",
    "C34_comma",
    "C34_offset"
   ],
   "note": "For all operand expressions of the token grammar in GrammarSpec.v (the restricted expressions LIMIT accepts), for every SELECT ... FROM of the grammar in front; LIMIT is only parsed after FROM. A locking clause may follow."
  },
  {
   "property": "C35",
   "status": "proved",
   "theorems": [
    "C35_tokens_partition_source",
    "C35_ranges_increase",
    "C35_eof_forever",
    "C35_layout_is_read"
   ],
   "note": ""
  },
  {
   "property": "C36",
   "status": "proved",
   "theorems": [
    "C36_statement_names",
    "C36_statements_names"
   ],
   "note": ""
  },
  {
   "property": "C37",
   "status": "proved",
   "theorems": [
    "C37_recover",
    "C37_balanced",
    "C37_recovered",
    "C37_recovered_trailing",
    "C37_fails",
    "C37_reachable",
    "C37_list"
   ],
   "note": "Exact characterisation for every state and token sequence (C37_recover), balanced brackets (C37_balanced), failing elements (C37_recovered, C37_recovered_trailing) and whole lists (C37_list); the hypothesis lwf holds in all states reached by any program (C37_reachable)."
  },
  {
   "property": "C38",
   "status": "proved",
   "theorems": [
    "C38_eq_ignores_span",
    "C38_order_total_and_consistent",
    "C38_borrow_consistent"
   ],
   "note": ""
  },
  {
   "property": "C39",
   "status": "proved",
   "theorems": [
    "C39_defaults",
    "C39_each_sets_its_own",
    "C39_extensional",
    "C39_commute_and_last_wins"
   ],
   "note": ""
  },
  {
   "property": "C40",
   "status": "proved",
   "theorems": [
    "C40_lookup_of_name",
    "C40_names_distinct",
    "C40_table_has_no_duplicates",
    "C40_unknown_word"
   ],
   "note": ""
  },
  {
   "property": "C41",
   "status": "partial",
   "theorems": [
    "C41_union_partial",
    "C41_refuted"
   ],
   "note": "UNION chains of any length with any branches of the grammar: branches in order with their qualifiers. False of the code: ORDER BY / LIMIT after a last branch with FROM is attached to that branch (C41_refuted, for all branches). EXCEPT / INTERSECT are not part of the accepted language."
  },
  {
   "property": "C42",
   "status": "proved",
   "theorems": [
    "C42_components",
    "C42_source"
   ],
   "note": "Any number of components; C42_components for every place a qualified name is read, C42_source for SELECT ... FROM a.b.c."
  },
  {
   "property": "C43",
   "status": "proved",
   "theorems": [
    "C43_statement_independent",
    "C43_statements_independent"
   ],
   "note": ""
  },
  {
   "property": "C44",
   "status": "partial",
   "theorems": [
    "C44_with_delimiter_partial",
    "C44_refuted"
   ],
   "note": "False of the code for every accepted source: parse_statements also reports the missing delimiter at the end as an Error (C44_refuted; same statement, same other issues). C44_with_delimiter_partial: with a delimiter appended both agree (statements of the token grammar)."
  },
  {
   "property": "C45",
   "status": "proved",
   "theorems": [
    "C45_statement_leaves",
    "C45_statements_leaves",
    "C45_statement_tags",
    "C45_statements_tags",
    "C45_statement_values",
    "C45_statements_values",
    "C45_statement_names",
    "C45_statements_names"
   ],
   "note": "For every source, option and result. C45_*_leaves: every leaf of the AST (enum constructors, operators, IN/IS forms, integers, floats, strings, function names, time units, system variables, data types, foreign key actions, index kinds, table options) is written at its span as LeafSpec.v says; _tags, _values, _names spell this out per kind. Words the code classifies wrongly are in separate tables (wrong_tags, wrong_actions, wrong_indexes)."
  },
  {
   "property": "C46",
   "status": "proved",
   "theorems": [
    "C46_statement",
    "C46_unique"
   ],
   "note": "For the grammar of GrammarSpec.v, StmtSpec.v and stmt_is (ScriptSpec.v): every source whose tokens it derives is accepted without issues and returned with exactly that AST (C46_statement), hence the AST is unique (C46_unique). Left out of the grammar: INSERT ... SELECT ... FROM ... followed by ON (read as a join condition by the code), flags with recovery, expression forms not in GrammarSpec.v, `?`/`%s` in text that is passed over (dollar-quoted bodies, skipped parts of scripts)."
  },
  {
   "property": "C47",
   "status": "proved",
   "theorems": [
    "C47_definition",
    "C47_script",
    "C47_function",
    "C47_dollar_function"
   ],
   "note": "For the grammar of DdlSpec.v: C47_definition and C47_script (views, indexes, types, tables, ALTER TABLE), C47_function (MariaDB, body a statement), C47_dollar_function (PostgreSQL). Left out of the grammar because the AST does not tell them apart (C32): UNIQUE/SPATIAL keys and NO ACTION in ALTER TABLE."
  },
  {
   "property": "C48",
   "status": "proved",
   "theorems": [
    "C48_if",
    "C48_case",
    "C48_do",
    "C48_trigger_script",
    "C48_trigger"
   ],
   "note": "For the mutual grammar of ScriptSpec.v, in every position: C48_if, C48_case, C48_do, C48_trigger, C48_trigger_script; C31_script and C46_statement cover the same statements. Outside of triggers the code rejects a semicolon in front of END (C48_semicolon_refuted is a witness); the grammar says so."
  },
  {
   "property": "C49",
   "status": "proved",
   "theorems": [
    "C49_in_order",
    "C49_in_order_no_error",
    "C49_exception_exists"
   ],
   "note": "C49_in_order for every source; C49_in_order_no_error without the exception; C49_exception_exists shows that the exception is there (SELECT 1; CREATE TABLE t (a INT(x)): the span of the second statement starts at 0)."
  },
  {
   "property": "C50",
   "status": "proved",
   "theorems": [
    "C50_statement_insert",
    "C50_statements_insert",
    "C50_top",
    "C50_top_in_script",
    "C50_kept"
   ],
   "note": "C50_statement_insert and C50_statements_insert for every INSERT or REPLACE anywhere in the result, C50_top and C50_top_in_script at the top, C50_kept for results without Error. Two values for one column and the numbers of columns and values are not checked by the code."
  },
  {
   "property": "C51",
   "status": "proved",
   "theorems": [
    "C51_statement",
    "C51_statement_kind",
    "C51_malformed_reported",
    "C51_script",
    "C51_balanced",
    "C51_unbalanced_reported",
    "C51_script_balanced",
    "C51_not_dangling"
   ],
   "note": "Grammar: rule in Ebnf.v. C51_statement, C51_statement_kind, C51_malformed_reported for parse_statement, C51_script for parse_statements; consequences: C51_balanced, C51_unbalanced_reported, C51_script_balanced (parentheses, not PostgreSQL, where a function body is skipped), C51_not_dangling. Sources with the word STDIN are outside of the quantifier: COPY ... FROM STDIN reads raw text."
  },
  {
   "property": "C52",
   "status": "proved",
   "theorems": [
    "C52_statement_unquoted",
    "C52_statements_unquoted",
    "C52_statement_only",
    "C52_statements_only"
   ],
   "note": "Level: the code reports it as an Error for names consumed directly and as a Warning for names at the start of an expression (see C20), so the theorems do not fix the level. The empty name at 0..0 that stands for a missing table name after an Error is excluded (v <> [])."
  },
  {
   "property": "C53",
   "status": "proved",
   "theorems": [
    "C53_statement",
    "C53_statements"
   ],
   "note": "C53_statement, C53_statements. The exclusions are needed: C53_handler_lost, C53_body_lost and C53_delimiter_lost are accepted sources whose placeholder is not in the AST. The converse (every argument of the AST is a placeholder of the source) is C12 and C13."
  },
  {
   "property": "C54",
   "status": "proved",
   "theorems": [
    "C54_statement",
    "C54_statements"
   ],
   "note": "C54_statement, C54_statements. The exclusions are needed: C54_interval and C54_bit (value kept, but not as a leaf at the literal's place), C54_handler_lost (dropped). Converse (every leaf of the AST is written in the source): C45."
  },
  {
   "property": "C55",
   "status": "proved",
   "theorems": [
    "C55_statement",
    "C55_statements"
   ],
   "note": "C55_statement, C55_statements. The exclusions are needed: C55_foreign_key_lost, C55_add_column_lost, C55_handler_lost (names accepted and lost) and C55_named_type_lost (PostgreSQL: of the name of a type only the place is kept). Converse (every identifier of the AST is written in the source): C36, C45."
  },
  {
   "property": "C56",
   "status": "proved",
   "theorems": [
    "C56_statement",
    "C56_statement_back",
    "C56_statements",
    "C56_statements_back",
    "C56_positions",
    "C56_layouts",
    "C56_same_tokens",
    "C56_same_tokens_script",
    "C56_insert_statement",
    "C56_insert_statements",
    "C56_statement_same_tree",
    "C56_statements_same_tree"
   ],
   "note": "C56_statement(s): the tokens of the second source are those of the first, moved by two monotone maps of starts and ends; C56_layouts shows that there are such maps for every two sources with the same tokens (if the second has a gap behind the last token, so must the first: the end of the last token and the end of input are one position otherwise; C56_statement_back covers the other direction, and C56_statement(s)_same_tree needs no such condition). C56_made_up: why nothing may be put in front if there are Errors. For scripts both calls must terminate (C07)."
  },
  {
   "property": "C57",
   "status": "proved",
   "theorems": [
    "C57_statement",
    "C57_statements",
    "C57_same_tokens",
    "C57_same_tokens_script",
    "C57_statement_in_place",
    "C57_statements_in_place"
   ],
   "note": "C57_statement(s): layout may differ as well (two monotone maps); C57_statement(s)_in_place: same places, equal AST. Only reserved words are recased: of other keywords the letters are kept where they are used as names (C57_names), and reserved words keep theirs in system variables (C57_variables). Which keyword a word is only depends on its capitals (C40). For scripts both calls must terminate (C07)."
  }
 ]
}