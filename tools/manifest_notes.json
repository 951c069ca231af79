{
 "C01": {
  "note": "The AST is traversed generically (spans_in); every span of every node is covered, including spans of identifiers, arguments and Invalid nodes."
 },
 "C06": {
  "note": "Any budget >= length + 2 suffices, for nesting depth and for every loop. C06_budget_independent: the result does not depend on the model's budget."
 },
 "C07": {
  "status": "partial",
  "note": "False of the code: DELIMITER at the end of the input loops for ever (C07_refuted: for every budget). C07_statements_terminate_partial: everything else terminates."
 },
 "C08": {
  "status": "partial",
  "note": "False of the code: three panics remain and each is exhibited (C08_refuted). The _partial theorems: no other panic, and each of the three needs its trigger text in the source."
 },
 "C12": {
  "note": "Placeholders consumed but dropped from the AST (error recovery) also take a number, so the numbers in the AST may have gaps; they are positions in the sequence of consumed placeholders."
 },
 "C14": {
  "note": "Lexing, decoding and consumption of one literal; t ranges over all texts (also with backslashes)."
 },
 "C15": {
  "status": "partial",
  "note": "False of the code: the decoder undoubles single quotes (src/parser.rs). C15_refuted gives the counterexample, C15_never_undoubled shows it fails for every text with a double quote and no single quote, C15_plain_partial is what holds."
 },
 "C16": {
  "note": "One exception is inherent in the lexer and stated: the single letter s directly after % (the %s argument)."
 },
 "C18": {
  "note": "Trivia may be inserted at any token boundary except directly after a - or / token it would glue to (C18_exception)."
 },
 "C20": {
  "status": "partial",
  "note": "False of the code: the lint for unquoted identifiers reports at level Error when the identifier is consumed as a plain identifier (C20_refuted). The capitalisation lint adds only warnings (C20_caps_lint_partial), and with both lints the issues are those without lints plus lint issues."
 },
 "C10": {
  "status": "partial",
  "note": "False of the code: without parentheses a OR b AND c is parsed as (a OR b) AND c for all operands (C10_refuted, C10_refuted_source on a concrete text). C10_parentheses_partial is what is left."
 },
 "C34": {
  "note": "For all operand expressions of the token grammar in GrammarSpec.v (the restricted expressions LIMIT accepts), for every SELECT ... FROM of the grammar in front; LIMIT is only parsed after FROM. A locking clause may follow."
 },
 "C41": {
  "status": "partial",
  "note": "UNION chains of any length with any branches of the grammar: branches in order with their qualifiers. False of the code: ORDER BY / LIMIT after a last branch with FROM is attached to that branch (C41_refuted, for all branches). EXCEPT / INTERSECT are not part of the accepted language."
 },
 "C42": {
  "note": "Any number of components; C42_components for every place a qualified name is read, C42_source for SELECT ... FROM a.b.c."
 },
 "C09": {
  "note": "For every state and operand (C09_result_is_grouped, C09_grouped_is_result); for sources: every query of the token grammar in GrammarSpec.v (all operand forms, ?/%s arguments numbered in the order they are written included, except the _LIST_ hack: CAST with types, aggregates, windows, intervals, TIMESTAMPADD, EXTRACT, variables, CASE, subqueries; joins, index hints, WINDOW, locking) is accepted without issues and returned (C09_query_source)."
 },
 "C31": {
  "note": "Scripts over the statements of the token grammar (queries, data statements, WITH, DROP, RENAME, TRUNCATE, SIGNAL, SET and transaction statements: stmt_is) with any number of DELIMITER ; / DELIMITER $$ commands: split exactly at the delimiter in force; the other delimiter is reported as an Error and skipped over. Other tokens as delimiter (accepted with a warning) are not covered by the grammar."
 },
 "C44": {
  "status": "partial",
  "note": "False of the code for every accepted source: parse_statements also reports the missing delimiter at the end as an Error (C44_refuted; same statement, same other issues). C44_with_delimiter_partial: with a delimiter appended both agree (statements of the token grammar)."
 },
 "C22": {
  "status": "partial",
  "note": "False of the code: the flag that makes BEGIN/END compound is not restored when a CREATE TRIGGER fails (C22_refuted). Proved: the mode is the initial one before every statement if the word TRIGGER does not occur (C22_mode_partial) or if no Error is reported (C22_error_free), for every source."
 },
 "C27": {
  "status": "partial",
  "note": "For every source and every feature of Ast.v (RETURNING of UPDATE, WITH, CREATE TYPE, ON DUPLICATE/CONFLICT, index hints, locks, ...): reported iff the dialect lacks it, as Error, at its place. Backtick names and operator classes where they are read (C27_backtick, C27_opclass); the first part of a name in an expression is not checked in PostgreSQL (C27_refuted)."
 },
 "C28": {
  "note": "Every name in the AST (C28_statement(s)_reserved), the converse (..._only_reserved) and every place a name is read (C28_consume_identifier, C28_token_identifier)."
 },
 "C33": {
  "note": "Every WITH query occurring anywhere in the result of an error-free parse."
 },
 "C21": {
  "status": "partial",
  "note": "False of the code in both directions (C21_refuted): AUTO_INCREMENT in capitals is warned about because of the underscore, and word operators such as 'or' are consumed without the check. Proved for every source: every such warning is about a keyword standing there that is not made of capital letters only (C21_statement(s)_only, ..._capitals_partial), and consume_keyword/skip_keyword warn exactly when they should."
 },
 "C37": {
  "note": "Exact characterisation for every state and token sequence (C37_recover), balanced brackets (C37_balanced), failing elements (C37_recovered, C37_recovered_trailing) and whole lists (C37_list); the hypothesis lwf holds in all states reached by any program (C37_reachable)."
 },
 "C45": {
  "note": "For every source, option and result. C45_*_leaves: every leaf of the AST (enum constructors, operators, IN/IS forms, integers, floats, strings, function names, time units, system variables, data types, foreign key actions, index kinds, table options) is written at its span as LeafSpec.v says; _tags, _values, _names spell this out per kind. Words the code classifies wrongly are in separate tables (wrong_tags, wrong_actions, wrong_indexes)."
 },
 "C32": {
  "status": "partial",
  "note": "False of the code (C32_refuted): NO ACTION is returned as SetNull, SET DEFAULT is rejected, UNIQUE and SPATIAL indexes are returned as FullText. C32_statement(s)_partial: apart from exactly these rows every action and index kind of every ALTER TABLE statement is returned as written. Missing: that every written form is accepted (SET DEFAULT is not)."
 },
 "C25": {
  "status": "partial",
  "note": "False as stated (C25_refuted: SELECT .. FOR UPDATE, DROP TABLE .. CASCADE: span() leaves the clause out). Proved for every AST value, reachable or not, and at every depth: a stored span is inside the node's span or is stored in one of six fields left out by five types (Select.locking, DropTable.cascade, CreateIndex.if_not_exists, CreateFunction.params/.returns, InsertReplace.columns); the computed span of any part is inside the node's span when nothing is left out. Missing: that the last four lie inside by position for parsed text."
 },
 "C46": {
  "note": "For the grammar of GrammarSpec.v, StmtSpec.v and stmt_is (ScriptSpec.v): every source whose tokens it derives is accepted without issues and returned with exactly that AST (C46_statement), hence the AST is unique (C46_unique). Left out of the grammar: INSERT ... SELECT ... FROM ... followed by ON (read as a join condition by the code), flags with recovery, expression forms not in GrammarSpec.v, `?`/`%s` in text that is passed over (dollar-quoted bodies, skipped parts of scripts)."
 },
 "C47": {
  "note": "For the grammar of DdlSpec.v: C47_definition and C47_script (views, indexes, types, tables, ALTER TABLE), C47_function (MariaDB, body a statement), C47_dollar_function (PostgreSQL). Left out of the grammar because the AST does not tell them apart (C32): UNIQUE/SPATIAL keys and NO ACTION in ALTER TABLE."
 },
 "C48": {
  "note": "For the mutual grammar of ScriptSpec.v, in every position: C48_if, C48_case, C48_do, C48_trigger, C48_trigger_script; C31_script and C46_statement cover the same statements. Outside of triggers the code rejects a semicolon in front of END (C48_semicolon_refuted is a witness); the grammar says so."
 },
 "C49": {
  "note": "C49_in_order for every source; C49_in_order_no_error without the exception; C49_exception_exists shows that the exception is there (SELECT 1; CREATE TABLE t (a INT(x)): the span of the second statement starts at 0)."
 },
 "C50": {
  "note": "C50_statement_insert and C50_statements_insert for every INSERT or REPLACE anywhere in the result, C50_top and C50_top_in_script at the top, C50_kept for results without Error. Two values for one column and the numbers of columns and values are not checked by the code."
 },
 "C51": {
  "note": "Grammar: rule in Ebnf.v. C51_statement, C51_statement_kind, C51_malformed_reported for parse_statement, C51_script for parse_statements; consequences: C51_balanced, C51_unbalanced_reported, C51_script_balanced (parentheses, not PostgreSQL, where a function body is skipped), C51_not_dangling. Sources with the word STDIN are outside of the quantifier: COPY ... FROM STDIN reads raw text."
 },
 "C52": {
  "note": "Level: the code reports it as an Error for names consumed directly and as a Warning for names at the start of an expression (see C20), so the theorems do not fix the level. The empty name at 0..0 that stands for a missing table name after an Error is excluded (v <> [])."
 },
 "C53": {
  "note": "C53_statement, C53_statements. The exclusions are needed: C53_handler_lost, C53_body_lost and C53_delimiter_lost are accepted sources whose placeholder is not in the AST. The converse (every argument of the AST is a placeholder of the source) is C12 and C13."
 },
 "C54": {
  "note": "C54_statement, C54_statements. The exclusions are needed: C54_interval and C54_bit (value kept, but not as a leaf at the literal's place), C54_handler_lost (dropped). Converse (every leaf of the AST is written in the source): C45."
 },
 "C55": {
  "note": "C55_statement, C55_statements. The exclusions are needed: C55_foreign_key_lost, C55_add_column_lost, C55_handler_lost (names accepted and lost) and C55_named_type_lost (PostgreSQL: of the name of a type only the place is kept). Converse (every identifier of the AST is written in the source): C36, C45."
 },
 "C56": {
  "note": "C56_statement(s): the tokens of the second source are those of the first, moved by two monotone maps of starts and ends; C56_layouts shows that there are such maps for every two sources with the same tokens (if the second has a gap behind the last token, so must the first: the end of the last token and the end of input are one position otherwise; C56_statement_back covers the other direction, and C56_statement(s)_same_tree needs no such condition). C56_made_up: why nothing may be put in front if there are Errors. For scripts both calls must terminate (C07)."
 },
 "C57": {
  "note": "C57_statement(s): layout may differ as well (two monotone maps); C57_statement(s)_in_place: same places, equal AST. Only reserved words are recased: of other keywords the letters are kept where they are used as names (C57_names), and reserved words keep theirs in system variables (C57_variables). Which keyword a word is only depends on its capitals (C40). For scripts both calls must terminate (C07)."
 }
}