# Formal model of antialize/sql-parse in Rocq (Coq 8.16.1)

## Approach

The crate is a pure function from (source text, options, issues so far) to
(AST, issues).  The model is an executable Gallina re-implementation, function
by function; every definition cites the file and lines it models.

* A Rust function `fn f(&mut Parser) -> Result<T>` becomes a value of type
  `prog T`, a free monad over the primitive parser effects (current token, its
  span, advance, peek, report an issue, argument counter, delimiter, permission
  flag, options, error recovery, reading COPY data), with meaning
  `run : prog T -> state -> Ok | Err | panic | out of fuel` (Parser.v).
* Loops and recursion are driven by explicit fuel; running out of fuel is a
  separate result.  C06 proves that it never happens with fuel `length + 2` and
  that more fuel changes nothing (Fuel.v), so the fuel is not part of the meaning.
* Panics (`unwrap`, `expect`, slicing, arithmetic overflow in debug builds) are
  results of the model, not excluded by types.

Kinds of proof:

1. *Every program.*  Facts that hold of every `prog` whatever it does (issues only
   appended, segments quote the source, independence of earlier issues, lints do
   not steer) are proved once by induction over `prog` (Generic.v, PropsBasic.v).
2. *Every function, bottom-up.*  One Hoare-style judgement `spec` (SafeLogic.v) is
   proved for every parse function: it terminates within its budget, panics only
   in the listed ways, fails only after reporting an Error, and every atom of the
   returned AST (span, identifier, argument, leaf, dialect feature, placeholder)
   is justified by the source text (Safe*.v) and lies in a given window of it.  The properties for *every* source
   (also malformed ones) are corollaries: PropsSafe, PropsDialect, PropsLint,
   PropsLeaf, PropsSpan, PropsOrder.
3. *Completeness.*  A token grammar independent of the parser (GrammarSpec.v,
   StmtSpec.v, DdlSpec.v, ScriptSpec.v) says which AST a token sequence denotes; Grammar*.v,
   StmtGrammar.v and Ddl*.v prove that the parser returns it without issues;
   PropsQuery/PropsScript/PropsStmt/PropsDdl lift this to source
   texts through the completeness of the lexer (LexerComplete.v, LexStream.v).
   The hypothesis `written o src ts` (View.v) says that `ts` are the tokens of `src` and
   that the numbering `rd_number` of `?`/`%s` arguments in the reading `o` (options and a
   number for each place) counts them from 0 in the order written; `written_exists` shows
   that every source has such a numbering, `written_plain` that it says nothing more than
   "the tokens are `ts`" when such arguments are off.
4. *Soundness of acceptance.*  An EBNF over tokens (Ebnf.v) and a logic of runs that add no Error
   (Accept.v): what every parse function consumes in such a run is derivable from its rule
   (AcceptTac, AcceptQuery, AcceptExpr, AcceptData, AcceptCreate, AcceptStmt, AcceptTop; PropsAccept).
5. *Completeness of the result.*  A second logic of such runs (Keep.v) for the placeholders, the literals and the names (KeepW,
   KeepGo, KeepQuery, KeepExpr, KeepDdl, KeepStmt, KeepTop; PropsKeep).
6. *Independence of the layout.*  A relational logic of two runs (Layout.v, LaySpan, LayGo, LayDataType, LaySelect,
   LayExpr, LayCreate, LayAlter, LayDrop, LayDml, LayStatement, LayTop; PropsLayout) up to the map of spans (Respan.v)
   and up to the case of reserved words (PropsCase).
7. *Functional theorems* on single functions (decoding, integers, recovery, order).

A claim that is false of the code gets a `_refuted` theorem with a witness, plus
the strongest positive theorem found (`_partial`).

## Trusted base

* The kernel of Coq 8.16.1 (including `vm_compute`, used for concrete witnesses
  and for facts over the finite keyword and function tables).
* Axioms: none.  `tools/assumptions.py` runs `Print Assumptions` on every theorem
  of MANIFEST.json: all are "Closed under the global context".  The seven
  `Coq.ssr.ssrunder.*` constants that a listing of the loaded libraries shows are
  in the standard library (loaded by `Lia`); no theorem depends on them.
* No functors, module types, plugins, `Admitted`, or disabled checks.
* That the model renders the code: see below.  `Conformance.v` runs the project's
  own doc-tests and unit tests that assert "no issues" on the model in the kernel;
  the tables of keywords and functions are generated from the Rust source
  (`tools/gen_keywords.py`, `tools/gen_functions.py`).
* The specifications: LexSpec.v (tokens and the text between them), LeafSpec.v
  (spelling tables), PrecSpec.v (grouping), Ebnf.v, GrammarSpec.v, StmtSpec.v, DdlSpec.v
  and ScriptSpec.v (grammar), and the definitions in front of the theorems in Props*.v.

### Modelled

| Rust | model |
|------|-------|
| src/lexer.rs (all) | Lexer.v |
| src/keywords.rs (tables, lookup, reserved) | Keywords.v, Base.v |
| src/parser.rs (all of `Parser`) | Parser.v |
| src/span.rs, `Spanned`/`OptSpanned` of all AST types | Base.v, Ast.v |
| src/data_type.rs, qualified_name.rs | DataType.v |
| src/select.rs, compound queries of statement.rs | Select.v |
| src/expression.rs | Expr.v, FuncTable.v |
| src/create.rs | Create.v |
| src/alter.rs | Alter.v |
| src/drop.rs, truncate.rs, rename.rs | Drop.v |
| src/delete.rs, update.rs, insert_replace.rs | Dml.v |
| src/with_query.rs, statement.rs | Statement.v |
| src/lib.rs: `parse_statement`, `parse_statements`, `ParseOptions` | Api.v, Base.v |
| src/issue.rs: `Issues`, `Display`; identifier.rs/sstring.rs: `Eq`, `Ord`, accessors | Base.v, Display.v |

### Not modelled, and simplifications

* `Debug`, `Hash`, `Clone` implementations, lifetimes and
  `Cow` (borrowed and owned text are the same value).
* Memory and stack limits: recursion depth is unbounded in the model, so a stack
  overflow of the real program on deeply nested input is outside it.
* Integers that count bytes are unbounded; a `usize` overflow needs a source of
  2^64 bytes.  Integers parsed from text have their real width.
* Text is a list of Unicode scalar values with byte offsets by UTF-8 length; char
  classification (`is_alphabetic`, ...) is only used by the code on ASCII tests.
* Enums whose constructors only carry a span are `tagged` values (constructor name
  and span); structs with the same shape share a record.
* AST positions of struct fields that the code drops (operator classes, THEN
  expressions of EXCEPTION) are dropped in the model too.
* Issues are assumed to be created for the source that is parsed (`Issues::new(src)`).
* A few error messages that embed a Rust `{:?}` rendering are constants.

## Findings (all proved in the model)

* Panics: `x'` hex literal at the end of input; `$` followed by a number beyond
  usize; span of an empty BEGIN/DO block inside WITH (C08_refuted).
* `DELIMITER` at the end of the input loops for ever (C07_refuted).
* OR binds tighter than AND: `a OR b AND c` is `(a OR b) AND c` (C10_refuted).
* Double-quoted strings are decoded by undoubling single quotes (C15_refuted).
* `\'` in a single-quoted literal makes the decoder drop the next character.
* The lint for unquoted names reports at level Error (C20_refuted); the capitals
  lint warns about `_` and digits and misses word operators (C21_refuted).
* The BEGIN/END mode is not restored after a failing CREATE TRIGGER (C22_refuted).
* Spans leave out the locking clause of SELECT and CASCADE of DROP TABLE (C25_refuted).
* PostgreSQL: backtick names in expressions are not reported (C27_refuted).
* ALTER TABLE: NO ACTION becomes SetNull, SET DEFAULT is rejected, UNIQUE and
  SPATIAL become FullText (C32_refuted).
* ORDER BY/LIMIT after a UNION goes to the last branch (C41_refuted).
* parse_statements reports an Error for a last statement without delimiter
  (C44_refuted).
* Spans made up by error recovery start at 0, so the span of a statement with an Error may
  cover the statements in front of it (C49_exception_exists).
* Exception handlers of blocks (`EXCEPTION WHEN x THEN e;`) are parsed and thrown away, bodies
  `AS $$ ... $$` of functions are skipped: what is written there, placeholders and literals included, is
  accepted and not in the AST (C53_handler_lost, C53_body_lost, C54_handler_lost).
* The columns and the table of a FOREIGN KEY in CREATE TABLE are parsed and thrown away (C55_foreign_key_lost);
  ALTER TABLE t ADD CONSTRAINT k COLUMN c .. is accepted and the name k dropped (C55_add_column_lost); of a type
  with a name (PostgreSQL) only the place is kept (C55_named_type_lost).
* `... ON x RIGHT JOIN c` fails since RIGHT is read as a word of the expression;
  `%`, `^`, DIV and MOD are never parsed as binary operators; JOIN .. USING takes
  its names without parentheses; a COLLATE property is returned as Charset; the
  words CHARSET in DEFAULT CHARSET are outside the option's span; in error recovery
  a closing bracket of a kind that is not open closes all open brackets.
* The Error "Unknown function" and the Unknown function can not occur: every word that starts a
  call is in the table or is not reserved (callable_word, C45_*_names).
* CREATE FUNCTION needs at least one parameter; after RETURNS type, NOT DETERMINISTIC
  and COMMENT are read as properties of the type; `DEFAULT x NULL` in a column is
  rejected; a CASE statement ends with END, not END CASE; outside of triggers a
  semicolon in front of the END of IF, CASE or DO is rejected, since END is taken for a
  statement (C48_semicolon_refuted); CREATE FUNCTION does not switch BEGIN/END mode on.

## Files, in build order

The first sentence of each file of rocq/theories.

- `Base.v`: Base types: text, spans, keywords, tokens, issues, options.
- `Keywords.v`: GENERATED by tools/gen_keywords.py from /repo/src/keywords.rs; the three tables of the [keywords!], [reserved!] and [expr_ident!] macros, in source order.
- `Lexer.v`: Model of src/lexer.rs.
- `Parser.v`: Model of src/parser.rs: parser state, the parser "programs" and the [Parser] methods.
- `Ast.v`: The abstract syntax tree returned by the parser, its [Spanned]/[OptSpanned] implementations, and a generic enumeration of the "atoms" (spans, identifiers, argument number
- `LeafSpec.v`: Specification: which words may stand where a leaf of the syntax tree says it is written.
- `DataType.v`: Model of src/qualified_name.rs and src/data_type.rs, and the record [recs] of the recursive entry points.
- `Select.v`: Model of src/select.rs and of the compound queries of src/statement.rs.
- `FuncTable.v`: GENERATED by tools/gen_functions.py from /repo/src/expression.rs.
- `FuncSpec.v`: the words of functions and units of time, listed again by constructor; the specifications of the grammar use this list, so that a row missing from `FuncTable.v` breaks C09 and C46.
- `Expr.v`: Model of src/expression.rs: the operator-precedence reducer and the parser of expressions.
- `Create.v`: Model of src/create.rs.
- `Alter.v`: Model of src/alter.rs.
- `Drop.v`: Model of src/drop.rs, src/truncate.rs and src/rename.rs.
- `Dml.v`: Model of src/delete.rs, src/update.rs and src/insert_replace.rs.
- `Statement.v`: Model of src/with_query.rs and src/statement.rs (the compound queries are in Select.v).
- `Api.v`: The public entry points, src/lib.rs:229-266, and the recursion of the parser.
- `Conformance.v`: the project's own tests, run in the model (tests, not proofs); generated by tools/gen_conformance.py.
- `LexSpec.v`: Specification vocabulary for the lexer: positions, the text of a token, the text between tokens.
- `LexerFacts.v`: Facts about the lexer: what [next_token] does to the remaining characters.
- `StdinFacts.v`: the data of COPY ... FROM STDIN.
- `LexerComplete.v`: Completeness of the lexer: text that spells a token is lexed as that token.
- `LexStream.v`: The sequence of tokens of a source, and what it means for it to be right.
- `PropsLexer.v`: Properties of the lexer: C14 (lexing), C16, C17, C18, C35, C40.
- `Generic.v`: Facts that hold of every parser program, whatever it does, because they hold of every primitive effect: proved once by induction over [prog].
- `Display.v`: Model of the parts of the public API around the parser that print or compare: [Display for Issues] (src/issue.rs:139-170) and the comparison of identifiers (src/identifie
- `PropsBasic.v`: Properties that follow from the structure of parser programs or from single functions: C02, C03, C14, C15, C19/C20 (up to slicing panics), C23, C24, C26, C38, C39, C43.
- `SafeLogic.v`: A program logic for parser programs: every run of a [prog] from a well-formed parser state either returns, fails after having reported an Error, or panics for one of the 
- `SafePrim.v`: The program logic, continued: primitive effects, [Parser] methods, loops, recovery.
- `SafeTac.v`: The program logic, continued: specifications of the [Parser] methods and of the loop and recovery combinators, and the tactic [go] that walks through a parser function.
- `Ctors.v`: The atoms of the constructors of [expr] and [stmt].
- `SafeSeg.v`: Spans of keywords: where they begin, what is written there, and that the next token follows after nothing but white space and comments.
- `SafeGo.v`: The tactic [go] that walks through a parser function, and the specifications of the list combinators.
- `SpanFacts.v`: Spans of AST values: if the spans stored in a value satisfy a predicate that is closed under [join], so does the span computed for the value.
- `SafeSpan.v`: Issues placed at the span of an AST value.
- `SafeSelect.v`: Specifications of the functions of src/data_type.rs, src/qualified_name.rs and src/select.rs.
- `SafeExpr.v`: Specifications of the functions of src/expression.rs.
- `SafeCreate.v`: Specifications of the functions of src/create.rs.
- `SafeDml.v`: Specifications of the functions of src/alter.rs, src/drop.rs, src/truncate.rs, src/rename.rs, src/delete.rs, src/update.rs and src/insert_replace.rs.
- `SafeCopy.v`: What the functions of src/statement.rs return: which ones return a COPY statement.
- `SafeStmt.v`: Specifications of the functions of src/with_query.rs and src/statement.rs.
- `SafeTop.v`: The recursion of the parser and the entry points: the safety specification of the whole.
- `PropsSafe.v`: Safety properties of the entry points, for all inputs: C01, C04-C08, C11-C13, C29, C36, and the part of C30 about the returned AST.
- `RunFacts.v`: General facts about running programs.
- `PrecSpec.v`: Operator precedence: what the tree of a chain of operands and operators should be, and that the reducer of src/expression.rs builds it (C09, C10).
- `ExprRead.v`: What [parse_expression] reads and what it returns: a chain of items read from left to right, and the grouped tree of that chain.
- `PropsExpr.v`: C09, C10: expressions.
- `View.v`: Reading known tokens: what a program returns when the tokens ahead are given.
- `GrammarSpec.v`: Specification: a grammar, on tokens, of expressions and of SELECT / UNION queries.
- `TokRules.v`: Rules for reading known tokens: the token that comes next, words, names, strings, lists.
- `Grammar.v`: The parser reads what the grammar of [GrammarSpec.v] generates.
- `GrammarProof.v`: The parser reads what the grammar generates: the cases.
- `GrammarOps.v`: The parser reads what the grammar generates: operands with a syntax of their own, types.
- `GrammarQuery.v`: The parser reads what the grammar generates: clauses, tables and queries, and the result.
- `GrammarTop.v`: The parser reads what the grammar generates: the result, for queries and for sources.
- `PropsQuery.v`: C34, C41, C42 and the grammar of queries at the level of sources.
- `StmtSpec.v`: Specification: a grammar, on tokens, of statements other than queries.
- `StmtGrammar.v`: The parser reads what the grammar of [StmtSpec.v] generates.
- `DdlSpec.v`: Specification: a grammar, on tokens, of the statements that define and change tables, views, indexes and types.
- `DdlGrammar.v`: The parser reads what the grammar of [DdlSpec.v] generates.
- `ReadRules.v`: Rules for programs that read the delimiter in force or whether compound statements are permitted.
- `DdlTable.v`: The parser reads the CREATE TABLE and ALTER TABLE statements of [DdlSpec.v].
- `DdlProc.v`: The parser reads the heads of CREATE FUNCTION and CREATE TRIGGER of [DdlSpec.v].
- `ScriptSpec.v`: Specification: a grammar, on tokens, of statements and scripts.
- `GrammarStmt.v`: [parse_statements] reads what the grammar of [ScriptSpec.v] generates.
- `Fuel.v`: The recursion budget does not matter: a program with a larger budget does the same unless the smaller budget was used up.
- `PropsScript.v`: C06/C07 (independence of the budget), C31 and C44.
- `PropsDialect.v`: C22 (modes), C27 (dialects), C28 (reserved words) and C33 (WITH queries), for all inputs.
- `PropsRecover.v`: C37: error recovery skips balanced brackets.
- `PropsLint.v`: C21: the lint for keywords that are not in capitals.
- `PropsLeaf.v`: C45, C32: the flags, modes and kinds in a syntax tree are those that were written.
- `PropsSpan.v`: C25 (the [Spanned] implementations of src/*.rs): does the span of a node contain the spans of its parts? Every span stored anywhere below a node lies inside the span the 
- `PropsOrder.v`: Where the statements of a script come from: disjoint stretches of the source, in order.
- `PropsStmt.v`: C46: the statements of [StmtSpec.v] and [GrammarStmt.v] are returned as they are written.
- `PropsDdl.v`: C47: definitions and ALTER TABLE are returned as they are written;
- `Ebnf.v`: C51: the language of sql-parse as a context-free grammar (EBNF) over its tokens.
- `Accept.v`: C51, the method: error-free runs of a program read tokens that a right-hand side of the grammar derives.
- `AcceptTac.v`: C51: rules for the methods of the parser, and a tactic that follows the grammar along a program.
- `AcceptQuery.v`: C51: data types, queries and expressions follow the grammar.
- `AcceptExpr.v`: C51: expressions follow the grammar.
- `AcceptData.v`: C51: DELETE, UPDATE, INSERT, DROP, TRUNCATE and RENAME follow the grammar.
- `AcceptCreate.v`: C51: CREATE and ALTER follow the grammar.
- `AcceptStmt.v`: C51: the statements follow the grammar.
- `AcceptTop.v`: C51: the entry points follow the grammar.
- `PropsAccept.v`: C51: what is accepted without an Error is well formed.
- `KeepW.v`: C53, C54, C55: weights of syntax trees.
- `Keep.v`: C53, C54, C55, the method: in a run without Errors every placeholder (or literal) that is read stands in the value returned.
- `KeepGo.v`: C53, C54, C55: the tactic [kgo] that walks through a parser function, and the methods of [Parser].
- `KeepQuery.v`: C53, C54, C55: the functions of src/data_type.rs, src/qualified_name.rs and src/select.rs.
- `KeepExpr.v`: C53, C54, C55: the functions of src/expression.rs.
- `KeepDdl.v`: C53, C54, C55: the functions of src/create.rs, src/alter.rs, src/drop.rs, src/truncate.rs, src/rename.rs, src/delete.rs, src/update.rs and src/insert_replace.rs.
- `KeepStmt.v`: C53, C54, C55: the functions of src/with_query.rs and src/statement.rs.
- `KeepTop.v`: C53, C54, C55: the entry points.
- `PropsKeep.v`: C53: no placeholder is lost.
- `Respan.v`: C56: the AST with other positions.
- `Layout.v`: C56: a judgement on two runs in lock-step.
- `LaySpan.v`: C56: the span of the AST with other positions.
- `LayGo.v`: C56: the tactic [lgo] that walks through a parser function twice at once, and the methods of [Parser].
- `LayDataType.v`: C56: the functions of DataType.v.
- `LaySelect.v`: C56: the functions of Select.v.
- `LayExpr.v`: C56: the functions of Expr.v.
- `LayCreate.v`: C56: the functions of Create.v.
- `LayAlter.v`: C56: the functions of Alter.v.
- `LayDrop.v`: C56: the functions of Drop.v.
- `LayDml.v`: C56: the functions of Dml.v.
- `LayStatement.v`: C56: the functions of Statement.v.
- `LayTop.v`: C56: the entry points.
- `PropsLayout.v`: C56: layout does not matter.
- `PropsCase.v`: C57: the case of the reserved words does not matter.

## Testing the theorems

`tools/mutate.py` applies one edit to the model in a scratch copy, removes all
Examples and Conformance.v, rebuilds and reports which theorems are lost;
`tools/mutants.json` lists the edits, `seeded/LOG.jsonl` the outcome.

## Plan per property

| id | modelled | proof |
|----|----------|-------|
| C01 | spans of every AST node and issue | judgement over all parse functions: all spans in the value are valid slices |
| C02 | issue segments | induction over `prog`: every added issue's segment is the slice |
| C03 | issue list | induction over `prog`: prefix |
| C04 | failure vs issues | judgement: `Err` only after an Error was added |
| C05 | Invalid nodes | judgement: #Invalid nodes <= #Errors added |
| C06 | fuel | judgement: no out-of-fuel with fuel > number of remaining characters + const |
| C07 | parse_statements loop | refuted (DELIMITER at end of input); positive theorem otherwise |
| C08 | panics as values | refuted (hex literal, `$` overflow, empty block span); positive: no other panic |
| C09 | reduce / shift machine | the returned tree satisfies the independent precedence specification |
| C10 | priorities | refuted by witness |
| C11 | ice() | judgement on the reducer |
| C12 | arg counter | judgement with a counting weight |
| C13 | DollarArg | functional theorem + lexer digits |
| C14, C15 | string lexing/decoding | induction over the text; C15 refuted |
| C16, C40 | keyword table | finite table + map over case |
| C17 | backtick idents | lexer theorem |
| C18 | trivia | lexer theorem over inserted trivia |
| C19 | lints | relational induction over `prog` |
| C20, C21 | lints | refuted / partial |
| C22 | permit flag | refuted by witness; positive part |
| C23 | integers | functional theorem |
| C24 | join | arithmetic |
| C25 | Spanned impls | containment for the AST types whose span joins all parts; refuted for others |
| C26 | Display line | functional theorem on counting newlines |
| C27 | dialect gating | functional theorems per construct |
| C28 | reserved words | functional theorem |
| C29 | end of input | functional theorem on the API |
| C30 | read_from_stdin | functional theorem with independent spec |
| C31 | DELIMITER | theorem on the main loop |
| C32 | ALTER actions | refuted by witnesses, positive cases |
| C33 | WITH | theorem on the with-query functions |
| C34 | LIMIT | functional theorem |
| C35 | lexer coverage | lexer theorem |
| C36 | identifiers | judgement: identifier atoms carry source text |
| C37 | recover | functional theorem with bracket-depth spec |
| C38 | identifier order | order theory on texts |
| C39 | builders | algebra |
| C41, C42 | compound queries, names | loop theorems |
| C43 | prior issues | relational induction over `prog` |
| C44 | API agreement | refuted without trailing delimiter / positive with |
| C45 | leaves of the AST (operators, literals, flags, kinds, types) | judgement: every leaf is written at its span as the tables of LeafSpec.v say |
| C46 | the statement parsers for INSERT/REPLACE, UPDATE, DELETE, WITH, SET, SIGNAL, RETURN, DROP, TRUNCATE, RENAME | a declarative grammar of statements on tokens (StmtSpec.v, `stmt_is`); every source it derives is read to exactly that AST |
| C47 | create.rs, alter.rs | grammar of definitions and ALTER TABLE (DdlSpec.v); every source it derives is read to exactly that AST |
| C48 | IF, CASE, BEGIN..END, DO, triggers of statement.rs/create.rs | mutual grammar of statements (ScriptSpec.v), induction on the number of tokens |
| C49 | parse_statements, all statement parsers | the judgement of SafeLogic.v carries a window `lo..hi` in which the spans of the result must lie; run for each statement in the window from its first to its last token |
| C50 | parse_insert_replace | the flags, the column list with SET and missing rows are "features" (Ast.v: FReplaceFlag, FSetColumns, FNoRows) that no dialect has; the judgement of SafeLogic.v ends with an Error for each |
| C51 | all parsers | a context-free grammar over tokens as a specification of its own (Ebnf.v: `rule`, `derives`, `script`); a logic of error-free runs (Accept.v: `reads`: if no Error was added, the tokens consumed are derivable), one lemma per parser (Accept*.v), induction over the recursion budget; parentheses and endings by an effect analysis of the grammar |
| C52 | the two functions that turn a word into an identifier | identifier atoms of SafeLogic.v carry, besides their text, the message that must be among the final issues; every issue is of one of four kinds (`good_issue`), of which only one has this message |
| C53 | all parsers | a logic of error-free runs (Keep.v: `rk`) that counts one chosen placeholder: as often as it is among the tokens consumed (at its span, with its number), so often at least it is among the atoms of the result; one lemma per parser (Keep*.v), induction over the recursion budget |
| C54 | all parsers | the same logic (it is parametrised by the kind of token that is counted, Keep.v: `kenv`, and by a weight for its atoms, KeepW.v): one chosen literal; for strings, whose tokens are joined, "covered by a leaf" |
| C55 | all parsers | the same logic with a third kind, names; a word that is consumed before it is known what it names is carried as "held" (KeepGo.v) until it becomes an identifier or a function name |
| C56 | lexer, all parsers | a relational logic (Layout.v: `pr`) of two runs in lock-step in front of the same tokens at other places: results, states and issues are the same up to `respan` (Respan.v, generated: replaces every span of an AST); one lemma per parser (Lay*.v), induction over the recursion budget; layouts by LexStream.v |
| C57 | lexer, keywords, all parsers | the same relational logic, with tokens that are equal up to the letters of a reserved word (Layout.v: `trel`, switch `lcase`): keyword tests, token comparisons and tables do not see the difference, names are never read from a reserved word without an Error; then as for C56. System variables, DELIMITER and STDIN are excluded; equality of the AST in place by C56 with the identity |
