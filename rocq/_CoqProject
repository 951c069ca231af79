-Q theories Verif
theories/Base.v
theories/Keywords.v
theories/Lexer.v
theories/Parser.v
theories/Ast.v
theories/LeafSpec.v
theories/DataType.v
theories/Select.v
theories/FuncTable.v
theories/FuncSpec.v
theories/Expr.v
theories/Create.v
theories/Alter.v
theories/Drop.v
theories/Dml.v
theories/Statement.v
theories/Api.v
theories/Conformance.v
theories/LexSpec.v
theories/LexerFacts.v
theories/StdinFacts.v
theories/LexerComplete.v
theories/LexStream.v
theories/PropsLexer.v
theories/Generic.v
theories/Display.v
theories/PropsBasic.v
theories/SafeLogic.v
theories/SafePrim.v
theories/SafeTac.v
theories/Ctors.v
theories/SafeSeg.v
theories/SafeGo.v
theories/SpanFacts.v
theories/SafeSpan.v
theories/SafeSelect.v
theories/SafeExpr.v
theories/SafeCreate.v
theories/SafeDml.v
theories/SafeCopy.v
theories/SafeStmt.v
theories/SafeTop.v
theories/PropsSafe.v
theories/RunFacts.v
theories/PrecSpec.v
theories/ExprRead.v
theories/PropsExpr.v
theories/View.v
theories/GrammarSpec.v
theories/TokRules.v
theories/Grammar.v
theories/GrammarProof.v
theories/GrammarOps.v
theories/GrammarQuery.v
theories/GrammarTop.v
theories/PropsQuery.v
theories/StmtSpec.v
theories/StmtGrammar.v
theories/DdlSpec.v
theories/DdlGrammar.v
theories/ReadRules.v
theories/DdlTable.v
theories/DdlProc.v
theories/ScriptSpec.v
theories/GrammarStmt.v
theories/Fuel.v
theories/PropsScript.v
theories/PropsDialect.v
theories/PropsRecover.v
theories/PropsLint.v
theories/PropsLeaf.v
theories/PropsSpan.v
theories/PropsOrder.v
theories/PropsStmt.v
theories/PropsDdl.v
theories/Ebnf.v
theories/Accept.v
theories/AcceptTac.v
theories/AcceptQuery.v
theories/AcceptExpr.v
theories/AcceptData.v
theories/AcceptCreate.v
theories/AcceptStmt.v
theories/AcceptTop.v
theories/PropsAccept.v
theories/KeepW.v
theories/Keep.v
theories/KeepGo.v
theories/KeepQuery.v
theories/KeepExpr.v
theories/KeepDdl.v
theories/KeepStmt.v
theories/KeepTop.v
theories/PropsKeep.v
theories/Respan.v
theories/Layout.v
theories/LaySpan.v
theories/LayGo.v
theories/LayDataType.v
theories/LaySelect.v
theories/LayExpr.v
theories/LayCreate.v
theories/LayAlter.v
theories/LayDrop.v
theories/LayDml.v
theories/LayStatement.v
theories/LayTop.v
theories/PropsLayout.v
theories/PropsCase.v
