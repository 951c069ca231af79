{"verdict": "killed", "file": "Ast.v", "line": 30, "old": "  | FPartialIndex | FDropIndexNoOn | FAddColumnIfNotExists => negb (is_maria d)", "new": "  | FPartialIndex | FDropIndexNoOn | FAddColumnIfNotExists => (is_maria d)", "desc": "negb dropped", "err": [["SafeCreate.v", "194"]], "t": 103}
{"verdict": "killed", "file": "Create.v", "line": 42, "old": "       consume_keyword \"DELETE\" ;;;", "new": "", "desc": "statement dropped", "err": [["DdlTable.v", "45"]], "t": 90}
{"verdict": "killed", "file": "Select.v", "line": 101, "old": "  o <- skip_keyword \"OUTER\" ;;", "new": "  o <- Ret (@None span) ;;", "desc": "optional word never read", "err": [["SafeSelect.v", "104"]], "t": 37}
{"verdict": "killed", "file": "Create.v", "line": 294, "old": "        consume_keyword k ;;;", "new": "", "desc": "statement dropped", "err": [["SafeCreate.v", "112"]], "t": 94}
{"verdict": "killed", "file": "Select.v", "line": 118, "old": "  else if is_kw t \"LEFT\" then s <- parse_outer_join \"LEFT\" ;; Ret (Some (mkTag \"JoinType::Left\" s))", "new": "  else if negb (is_kw t \"LEFT\") then s <- parse_outer_join \"LEFT\" ;; Ret (Some (mkTag \"JoinType::Left\" s))", "desc": "condition negated", "err": [["GrammarQuery.v", "178"]], "t": 85}
{"verdict": "killed", "file": "Lexer.v", "line": 238, "old": "  else if (c =? 39)%N then some (lex_string 39 TSingleQuotedString start l)  (* single quote *)", "new": "  else if (c =? 39)%N then some (lex_string 40 TSingleQuotedString start l)  (* single quote *)", "desc": "constant+1", "err": [["LexerFacts.v", "638"]], "t": 52}
{"verdict": "killed", "file": "Alter.v", "line": 156, "old": "  else if is_kw t \"COLUMN\" then parse_add_column r add_span", "new": "  else if negb (is_kw t \"COLUMN\") then parse_add_column r add_span", "desc": "condition negated", "err": [["DdlTable.v", "299"]], "t": 107}
{"verdict": "killed", "file": "Lexer.v", "line": 37, "old": "Definition is_word (c : N) : bool := is_alpha_ c || is_digit c.", "new": "Definition is_word (c : N) : bool := is_alpha_ c && is_digit c.", "desc": "||->&&", "err": [["LexerFacts.v", "402"]], "t": 58}
{"verdict": "killed", "file": "Create.v", "line": 304, "old": "    Ret (l ++ [TOString \"Comment\" identifier v], Continue)", "new": "    Ret (l ++ [TOString \"Comment\" identifier v], Break)", "desc": "Continue->Break", "err": [["DdlTable.v", "104"]], "t": 116}
{"verdict": "killed", "file": "Parser.v", "line": 494, "old": "                   Ret (l ++ [a], match c with Some _ => Continue | None => Break end)) []).", "new": "                   Ret (l ++ [a], match c with Some _ => Break | None => Break end)) []).", "desc": "Continue->Break", "err": [["TokRules.v", "131"]], "t": 92}
{"verdict": "killed", "file": "Dml.v", "line": 150, "old": "                 w <- consume_keyword \"WHERE\" ;; e <- r_expr r false ;; Ret (Some (w, e))", "new": "                 w <- consume_keyword \"WHERE\" ;; e <- r_expr r true ;; Ret (Some (w, e))", "desc": "false->true", "err": [["StmtGrammar.v", "319"]], "t": 92}
{"verdict": "killed", "file": "Create.v", "line": 227, "old": "  u <- skip_keyword \"USING\" ;;", "new": "  u <- Ret (@None span) ;;", "desc": "optional word never read", "err": [["SafeCreate.v", "182"]], "t": 96}
{"verdict": "killed", "file": "Select.v", "line": 163, "old": "    | Some (k, c) => s <- consume_keyword k ;; Ret (inl (l ++ [mkTag c s]))", "new": "    | Some (k, c) => s <- consume_keyword k ;; Ret (inr (l ++ [mkTag c s]))", "desc": "inl->inr", "err": [["GrammarQuery.v", "431"]], "t": 108}
{"verdict": "SURVIVED", "file": "Dml.v", "line": 87, "old": "      (if (String.eqb (tag f) \"HighPriority\" || String.eqb (tag f) \"Ignore\") && negb insert", "new": "      (if (String.eqb (tag f) \"HighPriority\" && String.eqb (tag f) \"Ignore\") && negb insert", "desc": "||->&&", "err": "", "t": 200}
{"verdict": "killed", "file": "Lexer.v", "line": 167, "old": "  else if (c =? 37)%N then some (tok2 115 TPercentS TMod l)           (* % then s *)", "new": "  else if (c =? 38)%N then some (tok2 115 TPercentS TMod l)           (* % then s *)", "desc": "constant+1", "err": [["LexerComplete.v", "300"]], "t": 51}
{"verdict": "killed", "file": "Create.v", "line": 147, "old": "  return_type <- parse_data_type r true ;;", "new": "  return_type <- parse_data_type r false ;;", "desc": "true->false", "err": [["DdlProc.v", "125"]], "t": 152}
{"verdict": "killed", "file": "Lexer.v", "line": 203, "old": "  else if (c =? 60)%N then                                            (* < *)", "new": "  else if negb ((c =? 60)%N) then                                            (* < *)", "desc": "condition negated", "err": [["LexerFacts.v", "562"]], "t": 44}
{"verdict": "killed", "file": "Parser.v", "line": 414, "old": "  if negb (contains 34 t) && negb (contains 92 t) then t else decode_loop t.", "new": "  if (contains 34 t) && negb (contains 92 t) then t else decode_loop t.", "desc": "negb dropped", "err": [["PropsBasic.v", "257"]], "t": 83}
{"verdict": "killed", "file": "Parser.v", "line": 509, "old": "            if tok_eqb t TRParen then Ret (inr l)", "new": "            if negb (tok_eqb t TRParen) then Ret (inr l)", "desc": "condition negated", "err": [["TokRules.v", "352"]], "t": 81}
{"verdict": "killed", "file": "Expr.v", "line": 154, "old": "       consume ;;;", "new": "", "desc": "statement dropped", "err": [["ExprRead.v", "285"]], "t": 36}
{"verdict": "killed", "file": "Dml.v", "line": 187, "old": "  into_span <- skip_keyword \"INTO\" ;;", "new": "  into_span <- Ret (@None span) ;;", "desc": "optional word never read", "err": [["StmtGrammar.v", "372"]], "t": 102}
{"verdict": "killed", "file": "Create.v", "line": 295, "old": "        skip_token TEq ;;;", "new": "", "desc": "statement dropped", "err": [["SafeCreate.v", "112"]], "t": 93}
{"verdict": "killed", "file": "Statement.v", "line": 204, "old": "  value <- (if negb (is_kw t \"WHEN\") then e <- r_expr r false ;; Ret (Some e) else Ret None) ;;", "new": "  value <- (if negb (is_kw t \"WHEN\") then e <- r_expr r true ;; Ret (Some e) else Ret None) ;;", "desc": "false->true", "err": [["GrammarStmt.v", "391"]], "t": 166}
{"verdict": "killed", "file": "Expr.v", "line": 131, "old": "  consume_token TLParen ;;;", "new": "", "desc": "statement dropped", "err": [["SafeExpr.v", "207"], ["Grammar.v", "289"]], "t": 66}
{"verdict": "killed", "file": "Lexer.v", "line": 168, "old": "  else if (c =? 35)%N then some (tok1 TSharp l)                       (* # *)", "new": "  else if (c =? 36)%N then some (tok1 TSharp l)                       (* # *)", "desc": "constant+1", "err": [["LexerFacts.v", "527"]], "t": 58}
{"verdict": "killed", "file": "Alter.v", "line": 195, "old": "    ty <- parse_data_type r false ;;", "new": "    ty <- parse_data_type r true ;;", "desc": "false->true", "err": [["DdlTable.v", "339"]], "t": 297}
{"verdict": "killed", "file": "Select.v", "line": 235, "old": "          && negb (is_postgresql d)", "new": "          && (is_postgresql d)", "desc": "negb dropped", "err": [["TokRules.v", "453"], ["SafeSelect.v", "170"]], "t": 51}
{"verdict": "killed", "file": "Statement.v", "line": 240, "old": "  else if is_kw t \"INSERT\" || is_kw t \"REPLACE\" then pmap SInsertReplace (parse_insert_replace r)", "new": "  else if negb (is_kw t \"INSERT\" || is_kw t \"REPLACE\") then pmap SInsertReplace (parse_insert_replace r)", "desc": "condition negated", "err": [["StmtGrammar.v", "492"]], "t": 101}
{"verdict": "killed", "file": "Lexer.v", "line": 210, "old": "          else if peek_is l 62 then LOk TShiftRight (bump l)", "new": "          else if negb (peek_is l 62) then LOk TShiftRight (bump l)", "desc": "condition negated", "err": [["LexerFacts.v", "576"]], "t": 55}
{"verdict": "killed", "file": "Select.v", "line": 86, "old": "                 match h with Some h => Ret (inl (l ++ [h])) | None => Ret (inr l) end) [] ;;", "new": "                 match h with Some h => Ret (inr (l ++ [h])) | None => Ret (inr l) end) [] ;;", "desc": "inl->inr", "err": [["GrammarQuery.v", "145"]], "t": 97}
{"verdict": "killed", "file": "Expr.v", "line": 343, "old": "    s <- skip_keyword \"ELSE\" ;;", "new": "    s <- Ret (@None span) ;;", "desc": "optional word never read", "err": [["SafeExpr.v", "368"]], "t": 78}
{"verdict": "killed", "file": "Dml.v", "line": 56, "old": "            | Some _ => i <- consume_plain_identifier ;; Ret (inl (l ++ [i]))", "new": "            | Some _ => i <- consume_plain_identifier ;; Ret (inr (l ++ [i]))", "desc": "inl->inr", "err": [["StmtGrammar.v", "169"]], "t": 90}
{"verdict": "killed", "file": "Drop.v", "line": 47, "old": "  else if is_kw t \"SCHEMA\" then v <- parse_drop_i drop_span \"SCHEMA\" ;; Ret (SDropDatabase v)", "new": "  else if negb (is_kw t \"SCHEMA\") then v <- parse_drop_i drop_span \"SCHEMA\" ;; Ret (SDropDatabase v)", "desc": "condition negated", "err": [["StmtGrammar.v", "431"]], "t": 110}
{"verdict": "killed", "file": "Expr.v", "line": 470, "old": "  else if tok_eqb t TMinus && negb top then un UMinus stk", "new": "  else if negb (tok_eqb t TMinus && negb top) then un UMinus stk", "desc": "condition negated", "err": [["ExprRead.v", "213"]], "t": 44}
{"verdict": "killed", "file": "Lexer.v", "line": 208, "old": "  else if (c =? 62)%N then                                            (* > *)", "new": "  else if (c =? 63)%N then                                            (* > *)", "desc": "constant+1", "err": [["LexerFacts.v", "574"]], "t": 62}
{"verdict": "killed", "file": "Expr.v", "line": 394, "old": "  else if tok_eqb t TQuestionMark && (match a with ArgQuestionMark => true | _ => false end) then", "new": "  else if tok_eqb t TQuestionMark || (match a with ArgQuestionMark => true | _ => false end) then", "desc": "&&->||", "err": [["ExprRead.v", "163"]], "t": 43}
{"verdict": "killed", "file": "Statement.v", "line": 275, "old": "    next ;;;", "new": "", "desc": "statement dropped", "err": [["GrammarStmt.v", "507"]], "t": 188}
{"verdict": "killed", "file": "Statement.v", "line": 204, "old": "  value <- (if negb (is_kw t \"WHEN\") then e <- r_expr r false ;; Ret (Some e) else Ret None) ;;", "new": "  value <- (if negb (is_kw t \"WHEN\") then e <- r_expr r false ;; Ret None else Ret None) ;;", "desc": "Some->None", "err": [["GrammarStmt.v", "391"]], "t": 179}
{"verdict": "killed", "file": "Drop.v", "line": 46, "old": "  else if is_kw t \"DATABASE\" then v <- parse_drop_i drop_span \"DATABASE\" ;; Ret (SDropDatabase v)", "new": "  else if negb (is_kw t \"DATABASE\") then v <- parse_drop_i drop_span \"DATABASE\" ;; Ret (SDropDatabase v)", "desc": "condition negated", "err": [["StmtGrammar.v", "431"]], "t": 102}
{"verdict": "killed", "file": "Alter.v", "line": 167, "old": "      e <- r_expr r false ;;", "new": "      e <- r_expr r true ;;", "desc": "false->true", "err": [["DdlTable.v", "284"]], "t": 118}
{"verdict": "killed", "file": "Display.v", "line": 12, "old": "  | S n => if (v <? 10)%N then [(v + 48)%N] else dec_digits n (v / 10) ++ [(v mod 10 + 48)%N]", "new": "  | S n => if (v <=? 10)%N then [(v + 48)%N] else dec_digits n (v / 10) ++ [(v mod 10 + 48)%N]", "desc": "boundary", "err": [["PropsBasic.v", "333"]], "t": 4}
{"verdict": "killed", "file": "Lexer.v", "line": 122, "old": "Definition usize_max : N := (2 ^ 64 - 1)%N.", "new": "Definition usize_max : N := (2 ^ 64 - 2)%N.", "desc": "constant+1", "err": "COQC theories/RunFacts.v\nCOQC theories/PrecSpec.v\nCOQC theories/Fuel.v\nCOQC theories/ExprRead.v\nCOQC theories/PropsExpr.v\nmake: *** [Makefile:409: all] Terminated\nmake[1]: *** wait: No child processes.  Stop.\nmake[1]: *** Waiting for unfinished jobs....\nmake[1]: *** wait: No child processes.  Stop.\n", "t": 2418}
{"verdict": "killed", "file": "DataType.v", "line": 102, "old": "    Ret (numeric, TyNumeric v1 v2 (join (join (join (join left s1) comma) s2) right))", "new": "    Ret (numeric, TyNumeric v1 v2 (join (join (join (left) comma) s2) right))", "desc": "join dropped", "err": [["TokRules.v", "304"]], "t": 53}
{"verdict": "killed", "file": "Lexer.v", "line": 239, "old": "  else if (c =? 34)%N then some (lex_string 34 TDoubleQuotedString start l)  (* double quote *)", "new": "  else if negb ((c =? 34)%N) then some (lex_string 34 TDoubleQuotedString start l)  (* double quote *)", "desc": "condition negated", "err": [["LexerFacts.v", "640"]], "t": 54}
{"verdict": "killed", "file": "Parser.v", "line": 396, "old": "  if tok_eqb t w then s <- consume ;; Ret (Some s) else Ret None.", "new": "  if tok_eqb t w then s <- consume ;; Ret None else Ret None.", "desc": "Some->None", "err": [["View.v", "86"]], "t": 90}
{"verdict": "killed", "file": "Lexer.v", "line": 203, "old": "  else if (c =? 60)%N then                                            (* < *)", "new": "  else if negb ((c =? 60)%N) then                                            (* < *)", "desc": "condition negated", "err": [["LexerFacts.v", "562"]], "t": 56}
{"verdict": "killed", "file": "Create.v", "line": 302, "old": "    skip_token TEq ;;;", "new": "", "desc": "statement dropped", "err": [["SafeCreate.v", "114"]], "t": 88}
{"verdict": "killed", "file": "Create.v", "line": 39, "old": "  o <- skip_keyword \"ON\" ;;", "new": "  o <- Ret (@None span) ;;", "desc": "optional word never read", "err": [["DdlTable.v", "44"]], "t": 103}
{"verdict": "killed", "file": "Alter.v", "line": 229, "old": "  online <- skip_keyword \"ONLINE\" ;;", "new": "  online <- Ret (@None span) ;;", "desc": "optional word never read", "err": [["SafeDml.v", "120"]], "t": 86}
{"verdict": "killed", "file": "Api.v", "line": 51, "old": "        Ret (Some v)", "new": "        Ret None", "desc": "Some->None", "err": [["PropsExpr.v", "103"]], "t": 4}
{"verdict": "killed", "file": "Alter.v", "line": 24, "old": "      Ret (inl (l ++ [IOComment s]))", "new": "      Ret (inl (l))", "desc": "element dropped", "err": [["DdlTable.v", "212"]], "t": 84}
{"verdict": "killed", "file": "Expr.v", "line": 478, "old": "  else if is_kw t \"TIMESTAMPADD\" then some_ (step_timestamp r ETimestampAdd stk)", "new": "  else if negb (is_kw t \"TIMESTAMPADD\") then some_ (step_timestamp r ETimestampAdd stk)", "desc": "condition negated", "err": [["ExprRead.v", "213"]], "t": 29}
{"verdict": "killed", "file": "Expr.v", "line": 457, "old": "  else if tok_eqb t TSpaceship && outer then bin NullSafeEq stk", "new": "  else if negb (tok_eqb t TSpaceship && outer) then bin NullSafeEq stk", "desc": "condition negated", "err": [["ExprRead.v", "213"]], "t": 26}
{"verdict": "killed", "file": "Expr.v", "line": 468, "old": "  else if is_kw t \"COLLATE\" && outer then un UCollate stk", "new": "  else if negb (is_kw t \"COLLATE\" && outer) then un UCollate stk", "desc": "condition negated", "err": [["ExprRead.v", "213"]], "t": 23}
{"verdict": "killed", "file": "Alter.v", "line": 34, "old": "              consume_token TRParen ;;;", "new": "", "desc": "statement dropped", "err": [["DdlTable.v", "162"]], "t": 122}
{"verdict": "killed", "file": "Parser.v", "line": 343, "old": "       else if negb (kw_eqb k QUOTED_IDENTIFIER) then perf (OLintIdent Error v s)", "new": "       else if (kw_eqb k QUOTED_IDENTIFIER) then perf (OLintIdent Error v s)", "desc": "negb dropped", "err": [["View.v", "133"]], "t": 78}
{"verdict": "killed", "file": "Expr.v", "line": 182, "old": "  (c =? 58)%N || (c =? 33)%N || (c =? 44)%N || (c =? 46)%N || (c =? 45)%N || (c =? 32)%N.", "new": "  (c =? 58)%N || (c =? 33)%N || (c =? 44)%N || (c =? 46)%N && (c =? 45)%N || (c =? 32)%N.", "desc": "||->&&", "err": [["TokRules.v", "239"]], "t": 34}
{"verdict": "killed", "file": "Select.v", "line": 16, "old": "  match t with TIdent _ k => negb (kw_reserved k) | _ => false end.", "new": "  match t with TIdent _ k => (kw_reserved k) | _ => false end.", "desc": "negb dropped", "err": [["GrammarQuery.v", "89"]], "t": 61}
{"verdict": "killed", "file": "Lexer.v", "line": 238, "old": "  else if (c =? 39)%N then some (lex_string 39 TSingleQuotedString start l)  (* single quote *)", "new": "  else if (c =? 40)%N then some (lex_string 39 TSingleQuotedString start l)  (* single quote *)", "desc": "constant+1", "err": [["LexerFacts.v", "638"]], "t": 34}
{"verdict": "killed", "file": "Parser.v", "line": 191, "old": "      if negb (forallb is_ascii_uppercase v) && o_warn_caps (s_opts st)", "new": "      if (forallb is_ascii_uppercase v) && o_warn_caps (s_opts st)", "desc": "negb dropped", "err": [["View.v", "102"]], "t": 65}
{"file": "Select.v", "line": 299, "defn": "parse_unions", "edit": "prepend", "old": "compound_query_bottom r ;;\n    let l := l ++ [mkUnionWith union_span ty s] in\n    t <- token ;;\n    if is_kw t \"UN", "new": "[mkUnionWith union_span ty s] ++ l", "failed": [["theories/GrammarQuery.v", "577"]], "ok": false, "secs": 100}
{"file": "Expr.v", "line": 482, "defn": "expr_step", "edit": "&& -> ||", "old": " bin Divide stk\n  else if tok_eqb t TMul && negb top then\n    s <- consume_token TMu", "new": " || ", "failed": [["theories/ExprRead.v", "213"]], "ok": false, "secs": 33}
{"file": "Statement.v", "line": 137, "defn": "parse_if", "edit": "Continue->Break", "old": "ition r None ;; Ret ((l ++ [c], false), Continue)\n            else\n              e <- sk", "new": "Break", "failed": [["theories/GrammarStmt.v", "387"]], "ok": false, "secs": 158}
{"file": "Expr.v", "line": 455, "defn": "expr_step", "edit": "|| -> &&", "old": "hen bin Xor stk\n  else if (is_kw t \"AND\" || tok_eqb t TDoubleAmpersand) && outer the", "new": " && ", "failed": [["theories/ExprRead.v", "213"]], "ok": false, "secs": 33}
{"file": "Select.v", "line": 299, "defn": "parse_unions", "edit": "item dropped", "old": "compound_query_bottom r ;;\n    let l := l ++ [mkUnionWith union_span ty s] in\n    t <- token ;;\n    if is_kw t \"UN", "new": "l", "failed": [["theories/GrammarQuery.v", "577"]], "ok": false, "secs": 95}
{"file": "Create.v", "line": 319, "defn": "parse_create_table", "edit": "negation dropped", "old": "Paren ;;;\n  t <- token ;;\n  defs <- (if negb (tok_eqb t TRParen) then recovered_list2 ", "new": "(", "failed": [["theories/DdlTable.v", "150"]], "ok": false, "secs": 162}
{"file": "Expr.v", "line": 314, "defn": "parse_id_parts", "edit": "item dropped", "old": "- consume_plain_identifier ;; Ret (inl (parts ++ [PName i]))\n             | _ => expected_failure ", "new": "parts", "failed": [["theories/SafeExpr.v", "351"]], "ok": false, "secs": 78}
{"file": "Select.v", "line": 284, "defn": "parse_compound_query_bottom", "edit": "Some -> None", "old": ")'\" is_rparen (q <- r_compound r ;; Ret (Some q)) ;;\n    consume_token TRParen ;;;\n    R", "new": "None", "failed": [["theories/AcceptQuery.v", "137"], ["theories/SafeSelect.v", "183"]], "ok": false, "secs": 56}
{"file": "Statement.v", "line": 278, "defn": "recover_statement", "edit": "false->true", "old": "lim ;;\n    if tok_eqb t d then Ret (inr false)\n    else if tok_eqb t TEof then Ret (i", "new": "true", "failed": [["theories/GrammarStmt.v", "512"]], "ok": false, "secs": 177}
{"file": "Create.v", "line": 377, "defn": "parse_create", "edit": "prepend", "old": " o with\n               | Some o => Ret (l ++ [o], Continue)\n               | None => Ret", "new": "[o] ++ l", "failed": [["theories/AcceptCreate.v", "134"]], "ok": false, "secs": 89}
{"file": "Expr.v", "line": 341, "defn": "parse_whens", "edit": "Continue->Break", "old": "kWhen w c th e], if is_kw t \"WHEN\" then Continue else Break)) [] ;;\n  if ok : bool then\n", "new": "Break", "failed": [["theories/GrammarProof.v", "314"]], "ok": false, "secs": 99}
