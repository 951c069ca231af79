{"id": "C01", "title": "Every span returned is a valid slice of the source", "statement": "For every byte range that parse_statement / parse_statements puts anywhere in the returned AST and in every issue and issue fragment it adds, start <= end, end <= the length of the source in bytes, and both ends lie on UTF-8 character boundaries, so that slicing the source with it never panics.", "quantifier": "every source string (any Unicode text), every ParseOptions, every AST node and issue produced", "why_tests_cant": "A span that is off by one inside a multi-byte character only shows on the inputs that put one there; the number of syntactic positions times lexical shapes is unbounded.", "anchors": ["src/lexer.rs: Lexer::next_token", "src/parser.rs: Parser::{consume,next,err,warn}", "src/span.rs: Spanned::join_span", "src/lib.rs: parse_statement, parse_statements"]}
{"id": "C02", "title": "Issue segments quote the source exactly", "statement": "For every issue and every fragment added by a parse, sql_segment is exactly the source text between the issue's span.start and span.end.", "quantifier": "every source string, every ParseOptions, every issue and fragment", "why_tests_cant": "Issues are produced on malformed inputs, a set no test suite enumerates.", "anchors": ["src/issue.rs: Issues::err, Issues::warn, Issues::segment, IssueHandle::frag"]}
{"id": "C03", "title": "Parsing only appends issues", "statement": "Parsing never removes, reorders or modifies issues that were already in the Issues value: the old issue list is a prefix of the new one.", "quantifier": "every source string, every ParseOptions, every initial Issues content", "why_tests_cant": "Must hold for all histories of an Issues value reused over several parses and all error-recovery paths.", "anchors": ["src/issue.rs: Issues", "src/parser.rs: Parser::err, Parser::warn"]}
{"id": "C04", "title": "No silent failure", "statement": "If parse_statement returns None then at least one issue of level Error was added during the call.", "quantifier": "every source string, every ParseOptions", "why_tests_cant": "A silent failure would sit on one of thousands of early-return paths; tests only cover the ones the author thought of.", "anchors": ["src/lib.rs: parse_statement", "src/parser.rs: Parser::{recover,recovered,expected_failure}"]}
{"id": "C05", "title": "Placeholders in the AST imply an Error", "statement": "If the AST returned by parse_statement or parse_statements contains an Invalid placeholder node (invalid expression, invalid statement) then at least one Error-level issue was added; equivalently 'the statement is free of errors if no Error issues are added'.", "quantifier": "every source string, every ParseOptions, every node of the returned AST", "why_tests_cant": "The library's error contract is an implication over all malformed inputs.", "anchors": ["src/lib.rs: parse_statement doc comment", "src/expression.rs: Expression::Invalid", "src/statement.rs: Statement::Invalid"]}
{"id": "C06", "title": "parse_statement terminates", "statement": "parse_statement terminates on every input; nesting depth of recursive calls and the number of iterations of every loop are bounded by a linear function of the length of the source.", "quantifier": "every source string, every ParseOptions", "why_tests_cant": "Non-termination is a property of unbounded executions; a finite test cannot distinguish slow from infinite and covers only sampled inputs.", "anchors": ["src/lib.rs: parse_statement", "src/statement.rs: parse_statement", "src/expression.rs: parse_expression", "src/parser.rs: recover"]}
{"id": "C07", "title": "parse_statements terminates", "statement": "parse_statements terminates on every input.", "quantifier": "every source string, every ParseOptions", "why_tests_cant": "Same as above: one unlucky input is enough for a denial of service.", "anchors": ["src/lib.rs: parse_statements", "src/statement.rs: parse_statements"]}
{"id": "C08", "title": "Parsing never panics", "statement": "parse_statement and parse_statements never panic (no todo!, no arithmetic overflow, no failed unwrap/expect, no bad slice), whatever the input.", "quantifier": "every source string, every ParseOptions", "why_tests_cant": "Panics hide on rare inputs; the claim is universal.", "anchors": ["src/lexer.rs: next_token (todo!, '$' digits)", "src/statement.rs: expect(\"Span of block\")", "src/statement.rs: parse_statements expect(\"Delimiter\")", "src/parser.rs: skip_keyword unwrap"]}
{"id": "C09", "title": "Operator expressions group by precedence and associativity", "statement": "For any chain of operands separated by binary operators (with prefix operators), the expression returned without errors is the unique tree whose in-order traversal is the input and in which every operator node's left child binds at least as tightly and its right child strictly more tightly than the node itself, with respect to the documented priority table.", "quantifier": "operator chains of any length over all binary and unary operators", "why_tests_cant": "Number of operator chains is infinite; tests check a handful of pairs.", "anchors": ["src/expression.rs: Reducer::{reduce,shift_binop,shift_unary,shift_expr}, Priority"]}
{"id": "C10", "title": "AND binds tighter than OR", "statement": "As in SQL, `a OR b AND c` is parsed as `a OR (b AND c)` for all operands.", "quantifier": "every three operands", "why_tests_cant": "A semantic fact about every formula mixing AND and OR, not one sample.", "anchors": ["src/expression.rs: Priority for BinaryOperator"]}
{"id": "C11", "title": "Internal compiler errors are unreachable", "statement": "No input makes the parser report an 'Internal compiler error' issue from the expression reducer.", "quantifier": "every source string, every ParseOptions", "why_tests_cant": "Unreachability cannot be tested.", "anchors": ["src/expression.rs: Reducer (parser.ice)", "src/parser.rs: Parser::ice"]}
{"id": "C12", "title": "Positional arguments are numbered consecutively", "statement": "The positional arguments (`?`, `%s`, `_LIST_` hack) in one call are numbered 0,1,2,... in source order: numbers occurring in the returned AST are pairwise distinct, smaller than the number of placeholders in the source, and the k-th placeholder token consumed gets number k.", "quantifier": "every source string, every ParseOptions with QuestionMark/Percent arguments", "why_tests_cant": "Holds over all nesting of statements, sub-queries and error recoveries.", "anchors": ["src/expression.rs: parse_expression (Token::QuestionMark, Token::PercentS, _LIST_)", "src/parser.rs: Parser.arg"]}
{"id": "C13", "title": "Dollar arguments are numbered from their text", "statement": "With SQLArguments::Dollar, `$n` becomes argument n-1 for every n >= 1, wherever it occurs, and does not disturb other numbering.", "quantifier": "every n representable in usize, every context", "why_tests_cant": "Infinite family of n and contexts.", "anchors": ["src/lexer.rs: '$' branch", "src/expression.rs: Token::DollarArg"]}
{"id": "C14", "title": "Single-quoted string literals decode to their SQL value", "statement": "For every text t, the literal obtained by doubling every single quote in t and enclosing it in single quotes is lexed as one string token covering the whole literal and decodes to t (t without backslash).", "quantifier": "every text t", "why_tests_cant": "Universal over all strings.", "anchors": ["src/lexer.rs: '\\'' branch", "src/parser.rs: decode_single_quoted_string, consume_string"]}
{"id": "C15", "title": "Double-quoted string literals decode to their SQL value", "statement": "For every text t, the literal obtained by doubling every double quote in t and enclosing it in double quotes decodes to t.", "quantifier": "every text t", "why_tests_cant": "Universal over all strings.", "anchors": ["src/lexer.rs: '\"' branch", "src/parser.rs: decode_double_quoted_string"]}
{"id": "C16", "title": "Keywords are case-insensitive", "statement": "Changing the ASCII case of any letter of an unquoted word does not change which keyword (if any) the word denotes; in particular a keyword is recognised in any mixture of case. (Only the letter s right after a percent sign is special: %s is an argument, %S is not.)", "quantifier": "every word, every case pattern", "why_tests_cant": "2^n spellings for each of 876 words plus all non-keywords.", "anchors": ["src/lexer.rs: simple_literal", "src/keywords.rs: From<&str>"]}
{"id": "C17", "title": "Backtick-quoted names are never keywords", "statement": "A backtick-quoted word is always an identifier with exactly the text between the quotes, even if that text spells a keyword.", "quantifier": "every text over the permitted characters", "why_tests_cant": "Universal over texts.", "anchors": ["src/lexer.rs: '`' branch", "src/keywords.rs: QUOTED_IDENTIFIER"]}
{"id": "C18", "title": "Whitespace and comments do not matter", "statement": "Inserting any amount of whitespace or complete comments between two tokens (or before the first, or after the last) does not change the sequence of tokens read, except that the tokens' positions move. (A comment put right after a - or / token would glue to it, so the point directly after such a token is excepted.)", "quantifier": "every source, every insertion point between tokens, every whitespace/comment text", "why_tests_cant": "Infinitely many insertions.", "anchors": ["src/lexer.rs: next_token whitespace and comment branches"]}
{"id": "C19", "title": "Lint options do not change the AST", "statement": "The returned AST is the same whatever the values of warn_unquoted_identifiers and warn_none_capital_keywords.", "quantifier": "every source string, all option values", "why_tests_cant": "Relational property of two runs over all inputs.", "anchors": ["src/lib.rs: ParseOptions", "src/parser.rs: consume_plain_identifier, token_to_plain_identifier, consume_keyword"]}
{"id": "C20", "title": "Lint options only add warnings", "statement": "Turning on warn_unquoted_identifiers or warn_none_capital_keywords never adds an Error-level issue: the Error issues are the same with and without the lints.", "quantifier": "every source string, all option values", "why_tests_cant": "Relational property of two runs over all inputs.", "anchors": ["src/parser.rs: consume_plain_identifier, token_to_plain_identifier, consume_keyword"]}
{"id": "C21", "title": "ALL CAPS keywords never get the capitalisation warning", "statement": "With warn_none_capital_keywords, a keyword written without lower-case letters never triggers the 'should be in ALL CAPS' warning, and one written with a lower-case letter and consumed as a keyword always does.", "quantifier": "every keyword and spelling", "why_tests_cant": "876 keywords times spellings times grammar positions.", "anchors": ["src/parser.rs: consume_keyword"]}
{"id": "C22", "title": "An erroneous statement does not change how later statements are parsed", "statement": "In parse_statements, which statements are accepted after a delimiter does not depend on whether an earlier statement of the script was erroneous: the parser's mode at the start of every statement is the initial one.", "quantifier": "every script, every erroneous prefix", "why_tests_cant": "History property over all scripts.", "anchors": ["src/statement.rs: parse_statements", "src/create.rs: parse_create_trigger (permit_compound_statements)"]}
{"id": "C23", "title": "Integer literals have their exact value", "statement": "An integer literal that is consumed has exactly its decimal value if it fits the target integer type, and otherwise an Error issue is reported.", "quantifier": "every digit string, every target width", "why_tests_cant": "Infinite set; boundary at 2^32 and 2^64.", "anchors": ["src/parser.rs: consume_int", "src/lexer.rs: '0'..='9' branch"]}
{"id": "C24", "title": "Joining spans gives the minimal hull", "statement": "join_span returns the smallest range containing both ranges; it is commutative, associative and idempotent, and opt_span of a list is the hull of its members, independent of order.", "quantifier": "all spans, all lists of spans", "why_tests_cant": "Algebraic law over all values.", "anchors": ["src/span.rs: Spanned::join_span, OptSpanned::opt_join_span, Vec::opt_span"]}
{"id": "C25", "title": "A node's span contains the spans of its parts", "statement": "For AST nodes returned by the parser, node.span() contains the span of every child reported by the public fields.", "quantifier": "every source, every node", "why_tests_cant": "Universal over inputs and node positions.", "anchors": ["impl Spanned for * in src/*.rs"]}
{"id": "C26", "title": "Displayed line numbers are right", "statement": "The line printed for an issue is one plus the number of newline characters before the issue's start.", "quantifier": "every source, every issue", "why_tests_cant": "Universal.", "anchors": ["src/issue.rs: Display for Issues"]}
{"id": "C27", "title": "Dialect-specific syntax outside its dialect is an Error", "statement": "Syntax that the parser supports only for some dialects (WITH, CREATE TYPE, ON CONFLICT, UPDATE .. RETURNING, FOR NO KEY UPDATE / KEY SHARE in PostgreSQL; index hints, ON DUPLICATE KEY UPDATE in MariaDB; operator classes; backtick identifiers in PostgreSQL, ...) always adds an Error issue when parsed under another dialect, and never adds that Error under its own dialect.", "quantifier": "every source containing the syntax, every dialect", "why_tests_cant": "Must hold for every continuation of the statement.", "anchors": ["src/with_query.rs", "src/create.rs", "src/insert_replace.rs", "src/update.rs", "src/select.rs", "src/drop.rs", "src/parser.rs"]}
{"id": "C28", "title": "A reserved word used as a plain identifier is an Error", "statement": "Whenever an unquoted reserved word is consumed as an identifier an Error issue at that word is added, and a non-reserved word never gets that error.", "quantifier": "every word, every grammar position that consumes an identifier", "why_tests_cant": "Universal over words and positions.", "anchors": ["src/parser.rs: consume_plain_identifier, token_to_plain_identifier", "src/keywords.rs: reserved"]}
{"id": "C29", "title": "An error-free parse has consumed the whole input", "statement": "If parse_statement returns Some without adding an Error issue then the parser is at the end of the input: no trailing text is silently ignored.", "quantifier": "every source string, every ParseOptions", "why_tests_cant": "Universal over inputs.", "anchors": ["src/lib.rs: parse_statement"]}
{"id": "C30", "title": "COPY ... FROM STDIN data is delimited exactly", "statement": "The data block returned for COPY ... FROM STDIN starts after optional blanks and at most one newline, ends at the first line consisting of exactly `\\.` (or at the end of input), does not contain such a line, and parsing resumes right after that line.", "quantifier": "every data text", "why_tests_cant": "Universal over data.", "anchors": ["src/lexer.rs: read_from_stdin", "src/parser.rs: read_from_stdin_and_next", "src/statement.rs: parse_statements"]}
{"id": "C31", "title": "DELIMITER changes what separates statements", "statement": "After a DELIMITER command the statements up to the next DELIMITER command are split at the new delimiter token and only there.", "quantifier": "every script, every delimiter token", "why_tests_cant": "History property.", "anchors": ["src/statement.rs: parse_statements", "src/parser.rs: Parser.delimiter"]}
{"id": "C32", "title": "ALTER TABLE actions are classified correctly", "statement": "FOREIGN KEY ... ON UPDATE/DELETE actions are returned as written (RESTRICT, CASCADE, SET NULL, SET DEFAULT, NO ACTION) and ADD {UNIQUE|FULLTEXT|SPATIAL|PRIMARY KEY|INDEX} yields the index type that was written.", "quantifier": "every ALTER TABLE statement", "why_tests_cant": "Universal over statements; the enum has cases tests never exercise.", "anchors": ["src/alter.rs: parse_add_alter_specification"]}
{"id": "C33", "title": "WITH blocks contain only data statements", "statement": "In a WITH query accepted without Error, every block's statement is SELECT, INSERT/REPLACE, UPDATE or DELETE (or a compound query), and so is the main statement.", "quantifier": "every WITH query", "why_tests_cant": "Universal.", "anchors": ["src/with_query.rs: parse_with_query"]}
{"id": "C34", "title": "LIMIT forms keep offset and count apart", "statement": "`LIMIT a, b` returns (offset a, count b) while `LIMIT a OFFSET b` returns (offset b, count a), `LIMIT a` has no offset, for all operand expressions.", "quantifier": "all operand expressions", "why_tests_cant": "Universal over expressions.", "anchors": ["src/select.rs: parse_select (LIMIT)", "src/statement.rs: parse_compound_query (LIMIT)"]}
{"id": "C35", "title": "The lexer accounts for every character exactly once", "statement": "Tokens are produced in increasing, non-overlapping source ranges; each token other than end of file covers at least one character; the text between consecutive tokens consists only of whitespace and comments; after the end of input the lexer keeps returning end of file.", "quantifier": "every source string", "why_tests_cant": "Universal over texts.", "anchors": ["src/lexer.rs: Lexer::next_token"]}
{"id": "C36", "title": "Identifier text is the source text at its span", "statement": "The value of every Identifier in the AST is the text of the source at the identifier's span, without the surrounding quotes if it was quoted.", "quantifier": "every source, every identifier in the AST", "why_tests_cant": "Universal over inputs and positions.", "anchors": ["src/identifier.rs", "src/parser.rs: consume_plain_identifier, token_to_plain_identifier", "src/lexer.rs"]}
{"id": "C37", "title": "Error recovery skips balanced brackets", "statement": "Error recovery inside a parenthesised list stops at the first closing token that is not nested inside further brackets, never passes the statement delimiter or the end of input, and leaves the tokens after that point to be parsed normally.", "quantifier": "every token sequence", "why_tests_cant": "Universal over sequences and nesting depths.", "anchors": ["src/parser.rs: recover, recovered"]}
{"id": "C38", "title": "Identifier equality and order ignore position", "statement": "Two Identifiers are equal iff their texts are; the order is a total order consistent with equality and with the order of the borrowed str; hash/borrow consistency holds.", "quantifier": "all identifiers", "why_tests_cant": "Algebraic law.", "anchors": ["src/identifier.rs"]}
{"id": "C39", "title": "ParseOptions builder methods are independent", "statement": "Each builder method changes exactly its own option, the last call wins, and calls of different methods commute; defaults are MariaDB, no arguments, no warnings.", "quantifier": "all sequences of builder calls", "why_tests_cant": "Universal over call sequences.", "anchors": ["src/lib.rs: ParseOptions"]}
{"id": "C40", "title": "Keyword names and lookup are inverse", "statement": "Looking up the name of a keyword gives that keyword back; no two keywords share a name; a word that is not in the table is not a keyword.", "quantifier": "all words and all keywords", "why_tests_cant": "Finite but large table; also claims about all other words.", "anchors": ["src/keywords.rs: keywords!, Keyword::name, From<&str>"]}
{"id": "C41", "title": "Compound queries keep their branches in order", "statement": "A UNION/EXCEPT/INTERSECT chain is returned with its branches in source order, each with its own set operator and ALL/DISTINCT qualifier, and trailing ORDER BY / LIMIT attached to the whole.", "quantifier": "chains of any length", "why_tests_cant": "Unbounded length.", "anchors": ["src/statement.rs: parse_compound_query, Union"]}
{"id": "C42", "title": "Qualified names keep their components in order", "statement": "`a.b.c` yields prefix [a, b] and identifier c for any number of components; the text and order of components are those of the source.", "quantifier": "any number of components", "why_tests_cant": "Unbounded length.", "anchors": ["src/qualified_name.rs: parse_qualified_name"]}
{"id": "C43", "title": "The result does not depend on earlier issues", "statement": "The AST returned and the issues added do not depend on which issues the Issues value already contained.", "quantifier": "every source, every ParseOptions, every initial issue list", "why_tests_cant": "Relational property over all histories.", "anchors": ["src/lib.rs: parse_statement, parse_statements", "src/issue.rs"]}
{"id": "C44", "title": "parse_statements agrees with parse_statement on single statements", "statement": "If a source is a single statement accepted by parse_statement without Error, parse_statements returns exactly the list with that one statement and adds the same issues.", "quantifier": "every source accepted by parse_statement", "why_tests_cant": "Relational property over all inputs.", "anchors": ["src/lib.rs: parse_statement, parse_statements", "src/statement.rs"]}
{"id": "C45", "title": "Words in the AST stand in the source where the AST says", "statement": "Every flag, mode, kind and operator in a returned AST (SELECT flags, join types, index hints, lock strengths, foreign key types, operators, IS tests, literals, ...) carries a span, and the source text at that span is the word or words that denote it, in any case and with comments and white space between them. The known exceptions are listed: NO ACTION, UNIQUE/SPATIAL indexes and the spans of NATURAL LEFT/RIGHT JOIN.", "quantifier": "every source, even one with errors, every option, every node of every statement", "why_tests_cant": "Universal over inputs and over the several hundred places in the grammar where a word becomes an enum constructor.", "anchors": ["src/select.rs: parse_select, parse_table_reference", "src/alter.rs", "src/create.rs", "src/insert_replace.rs", "src/expression.rs", "src/data_type.rs"]}
{"id": "C46", "title": "Data statements are accepted and returned as written", "statement": "A well-formed INSERT, REPLACE, UPDATE, DELETE, WITH (PostgreSQL), SET, SIGNAL, RETURN, DROP, TRUNCATE, RENAME TABLE or transaction statement (over the names, expressions and queries of the supported syntax) is accepted without any issue, and the AST returned has every table, column, value, flag and clause of the source, in order, in the field for it and with its span, and nothing else; a source has only one such AST.", "quantifier": "every statement generated by the grammar, with any number of tables, columns, rows, assignments, WITH blocks and any nesting, every option under which it is allowed", "why_tests_cant": "Unboundedly many statements of unbounded size.", "anchors": ["src/insert_replace.rs", "src/update.rs", "src/delete.rs", "src/with_query.rs", "src/drop.rs", "src/rename.rs", "src/truncate.rs", "src/statement.rs"]}
{"id": "C47", "title": "Definitions and ALTER TABLE are accepted and returned as written", "statement": "A well-formed CREATE TABLE, VIEW, INDEX, TYPE or FUNCTION or ALTER TABLE statement of the supported syntax is accepted without any issue, alone or in a script, and the AST returned has every option, column, data type, property, constraint, index column, foreign key action, table option, parameter and characteristic of the source that the AST has a place for, in order, with its span, and nothing else.", "quantifier": "every statement generated by the grammar, any number of columns, properties, changes and options, every dialect under which it is allowed", "why_tests_cant": "Unboundedly many statements of unbounded size.", "anchors": ["src/create.rs", "src/alter.rs", "src/data_type.rs"]}
{"id": "C48", "title": "Compound statements are accepted and returned as written", "statement": "IF, CASE, BEGIN ... END blocks, DO and triggers, nested to any depth, are accepted without any issue and returned with every condition, branch and statement of the source in order; while another delimiter is set, the semicolons inside of a trigger's body do not end it.", "quantifier": "every nesting of compound statements generated by the grammar, over all statements of the supported syntax", "why_tests_cant": "Unbounded nesting and length.", "anchors": ["src/statement.rs: parse_if, parse_case_statement, parse_block, parse_do, parse_statement_list", "src/create.rs: parse_create_trigger"]}
{"id": "C49", "title": "The statements of a script come from disjoint stretches of the source, in order", "statement": "If x comes before y in the list returned by parse_statements, every span stored in x, and the span of x itself, ends before or where every span of y starts. The only exception, and only if an Error is reported, are spans made up by error recovery, which start at 0. Data blocks of COPY ... FROM STDIN are elements of the list of their own.", "quantifier": "every source, well-formed or not, every option, every pair of statements of the result and every span in them", "why_tests_cant": "Universal over inputs and pairs of positions in unboundedly long scripts.", "anchors": ["src/statement.rs: parse_statements", "src/parser.rs", "src/span.rs"]}
{"id": "C50", "title": "INSERT and REPLACE keep to their own rules or are reported", "statement": "Wherever an INSERT or REPLACE occurs in a returned AST: a REPLACE with HIGH_PRIORITY or IGNORE has an Error at each such flag, a column list together with SET has an Error at the column list, and one without VALUES, SELECT and SET has an Error; so one that is returned without any Error has rows, and has no column list with SET and no such flag on REPLACE.", "quantifier": "every source, every option, every INSERT or REPLACE at any depth of a statement or script", "why_tests_cant": "Universal over inputs and places in the AST.", "anchors": ["src/insert_replace.rs: parse_insert_replace"]}
{"id": "C51", "title": "Only well-formed SQL is accepted without an Error", "statement": "If parse_statement returns a statement and adds no Error, the tokens of the source are derivable in the grammar of the supported SQL (an EBNF over tokens, per dialect), from the rule for the kind of statement that is returned; if parse_statements adds no Error, the source is a sequence of such statements, each followed by the delimiter in force (as set by DELIMITER lines), and as many as are returned. So malformed input - a missing keyword, an unbalanced parenthesis, a dangling operator or comma, trailing tokens - is reported by at least one Error.", "quantifier": "every source without the word STDIN that the lexer accepts, every option", "why_tests_cant": "Universal over inputs: tests can show some malformed inputs to be rejected, not that none is let through.", "anchors": ["src/parser.rs: consume_keyword, consume_token, recovered", "src/expression.rs", "src/select.rs", "src/create.rs", "src/alter.rs", "src/statement.rs", "src/lib.rs"]}
{"id": "C52", "title": "The lint for unquoted identifiers is complete and exact", "statement": "With warn_unquoted_identifiers on, every identifier in the returned AST that stands in the source as such, without quotes, and is not a reserved word (those have an Error, C28) has an issue 'identifiers should be quoted as `v`' at exactly its span. Conversely every issue with that message is at the place of an unquoted word that is not reserved and names that word, and with the option off there is none.", "quantifier": "every source, well-formed or not, every option, every identifier at any depth of a statement or script", "why_tests_cant": "Universal over inputs and over the several hundred places in the grammar where a word is read as a name.", "anchors": ["src/parser.rs: consume_plain_identifier, token_to_plain_identifier", "src/expression.rs", "src/qualified_name.rs"]}
{"id": "C53", "title": "No placeholder is lost", "statement": "If parse_statement or parse_statements adds no Error, every placeholder written in the source (?, %s or $n) is an argument of the returned AST, at exactly the span where it is written and with the right number: n - 1 for $n, and for ? and %s (without the _LIST_ hack) the number of such placeholders written before it. The source must not contain parts that the parser skips by design or by omission: the word STDIN (data of COPY), the word EXCEPTION (exception handlers are parsed and thrown away), in PostgreSQL both the word FUNCTION and $$ (bodies AS $$ ... $$ are skipped), and for scripts a placeholder right after DELIMITER.", "quantifier": "every source accepted without an Error, of any statement kinds and nesting, every option, every placeholder token in it", "why_tests_cant": "Universal over inputs, and over all places in the grammar where an expression is read and stored: tests can show some to be kept, not that none is dropped.", "anchors": ["src/expression.rs: parse_expression", "src/select.rs", "src/update.rs", "src/delete.rs", "src/insert_replace.rs", "src/create.rs", "src/alter.rs", "src/statement.rs", "src/parser.rs"]}
{"id": "C54", "title": "No number and no string is lost", "statement": "If parse_statement or parse_statements adds no Error, every literal written in the source is a leaf of the returned AST: an integer with its value and a number with a period with its text, at exactly the span where it is written, a string (between single quotes or, except in PostgreSQL's dialect, double quotes) as, or as one of several in a row that make up, a string leaf whose span covers it (its value is the subject of C45). So no LIMIT, width, default, comment, enum value, condition or row is dropped. The source must not contain the parts that the parser skips (see C53), literals whose value is kept in another form than as a leaf (words INTERVAL, NUMERIC, BIT), nor for scripts a literal right after DELIMITER.", "quantifier": "every source accepted without an Error, of any statement kinds and nesting, every option, every literal token in it", "why_tests_cant": "Universal over inputs, and over all places in the grammar where a literal is read and stored.", "anchors": ["src/expression.rs: parse_expression", "src/data_type.rs", "src/create.rs", "src/alter.rs", "src/select.rs", "src/statement.rs", "src/parser.rs: consume_int, consume_float, consume_string"]}
{"id": "C55", "title": "No name is lost", "statement": "If parse_statement or parse_statements adds no Error, every name written in the source - a quoted identifier, or a word that is no SQL keyword - is, at exactly the span where it is written and with its text, an identifier of the returned AST (table, column, alias, qualifier, constraint, parameter, ...), the name of a function that is called, or that of a system variable. So no column of an INSERT, no alias, no USING or RETURNING column, no table of a join or of a multi-table DELETE is dropped. For MariaDB and SQLite. The source must not contain the parts that the parser skips (see C53), nor the word CONSTRAINT (the names in the FOREIGN KEY of CREATE TABLE are parsed and thrown away, and so is the name in ALTER TABLE .. ADD CONSTRAINT name COLUMN), nor for scripts a name right after DELIMITER.", "quantifier": "every source accepted without an Error, of any statement kinds and nesting, every option with a dialect other than PostgreSQL, every name token in it", "why_tests_cant": "Universal over inputs, and over the several hundred places in the grammar where a name is read and stored.", "anchors": ["src/parser.rs: consume_plain_identifier, token_to_plain_identifier", "src/expression.rs: parse_expression, parse_function", "src/qualified_name.rs", "src/select.rs", "src/insert_replace.rs", "src/create.rs", "src/alter.rs", "src/drop.rs", "src/statement.rs"]}
{"id": "C56", "title": "Layout does not change the result", "statement": "parse_statement and parse_statements only depend on the tokens: if two sources have the same tokens - they differ in white space, line breaks and comments between them - and there is no Error, they return the same AST, except that every span in it starts and ends where its tokens start and end in the other source; and the same issues, moved in the same way. With Errors too, unless something is put in front of the first token: spans that are made up where something is missing are 0..0. (Sources with the word STDIN excepted: the data of COPY ... FROM STDIN are not tokens.)", "quantifier": "every pair of sources with the same tokens, accepted or not, every option", "why_tests_cant": "Universal over pairs of inputs and over all parse functions: none of them may look at positions, at adjacency of tokens or at the text between them.", "anchors": ["src/parser.rs: Parser", "src/lexer.rs: next_token", "src/expression.rs", "src/select.rs", "src/create.rs", "src/alter.rs", "src/statement.rs", "src/span.rs"]}
{"id": "C57", "title": "The case of reserved words does not matter", "statement": "If two sources differ in the spelling of reserved words only (SELECT, Select, select; also VALUES, IF, LEFT and the other reserved words that name functions), and possibly in their layout, and the first is accepted without an Error (and the lint for capitals is off), then so is the second, with the same warnings and with the same AST; the very same AST, spans included, if the tokens are at the same places. (Sources with the words STDIN and DELIMITER and with system variables @@global.x and @@session.x excepted: these keep the spelling of a word.)", "quantifier": "every pair of sources with the same tokens up to the case of reserved words, of all statement kinds, every option without the lint for capitals", "why_tests_cant": "Universal over pairs of inputs and over all parse functions: none of them may look at the letters of a reserved word or store them.", "anchors": ["src/keywords.rs: Keyword, Keyword::reserved, Keyword::expr_ident", "src/parser.rs: consume_keyword, token_to_plain_identifier, consume_plain_identifier", "src/expression.rs: parse_function, parse_expression", "src/data_type.rs", "src/statement.rs"]}
