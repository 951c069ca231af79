(** C51: the language of sql-parse as a context-free grammar (EBNF) over its tokens.
    This file is the specification; it uses nothing of the model of the parser but the tokens,
    the keyword tables (src/keywords.rs) and the options. *)
From Verif Require Export DataType.
Local Open Scope string_scope.
Local Open Scope list_scope.

(** Classes of tokens. *)
Inductive cls :=
| CName                 (* a name: not a reserved word; quoting as in the dialect *)
| CColumn               (* the first part of a name in an expression *)
| CCallable             (* what may stand before the parenthesis of a call *)
| CWord                 (* any word (a user defined type, the name of a variable) *)
| CInt (max : N)        (* an integer literal up to [max] *)
| CFloat
| CString               (* one string literal *)
| CArgument             (* an argument, if the options allow one *)
| CAny.                 (* any token but [$$] and the end *)
Definition in_class (o : options) (c : cls) (t : tok) : bool :=
  match c, t with
  | CName, TIdent _ k => negb (kw_reserved k) && negb (kw_eqb k QUOTED_IDENTIFIER && is_postgresql (o_dialect o))
  | CName, TDoubleQuotedString _ => is_postgresql (o_dialect o)
  | CColumn, TIdent _ k => negb (kw_reserved k)
  | CCallable, TIdent _ k => kw_expr_ident k || kw_eqb k (KW "LEFT")
  | CWord, TIdent _ _ => true
  | CInt m, TInteger v => (digits_value v <=? m)%N
  | CFloat, TFloat _ => true
  | CString, (TSingleQuotedString _ | TDoubleQuotedString _) => true
  | CArgument, TQuestionMark => match o_arguments o with ArgQuestionMark => true | _ => false end
  | CArgument, TPercentS => match o_arguments o with ArgPercent => true | _ => false end
  | CArgument, TDollarArg _ => match o_arguments o with ArgDollar => true | _ => false end
  | CAny, t => negb (tok_eqb t TDoubleDollar) && negb (tok_eqb t TEof)
  | _, _ => false
  end.

(** The nonterminals. *)
Inductive nt :=
| NQualified | NStrings | NWidth | NType | NProperty (no_as : bool) | NDataType (no_as : bool)
| NExpr (inner : bool) | NOperand (inner : bool) | NTail (inner : bool) | NPrimary | NCall | NOuter | NParen | NUnit
| NSelect | NSelectExpr | NTable | NTableRef | NHint | NJoin | NJoinSpec | NOrderBy | NOrdered | NLimit | NLocking
| NSingle | NQueryBottom | NQuery
| NReturning | NInsert | NConflict | NUpdate | NDelete
| NDrop | NTruncate | NRename
| NWith | NSet | NSignal | NReturn
| NStatements | NBlock | NIf | NCase | NDo
| NCreate | NCreateOption | NCreateIndex | NCreateTable | NDefinition | NTableOption | NCreateView
| NCreateFunction | NParam | NCharacteristic | NDollarBody | NCreateTrigger | NCreateType
| NAlter | NAlteration | NAdd | NIndexCols | NIndexOption | NForeignOn | NAlterColumn
| NStmt.

(** Right-hand sides. *)
Inductive g :=
| W (k : string) | T (t : tok) | C (c : cls) | N_ (n : nt)
| Seq (l : list g) | Alt (l : list g) | Opt (a : g) | Star (a : g).
Definition commas (a : g) : g := Seq [a; Star (Seq [T TComma; a])].
Definition paren (l : list g) : g := Seq (T TLParen :: l ++ [T TRParen]).
Definition words (l : list string) : g := Seq (map W l).
Definition one_of (l : list string) : g := Alt (map W l).
Definition never : g := Alt [].
(** Only in one dialect; only in the others. *)
Definition pg (o : options) (a b : g) : g := if is_postgresql (o_dialect o) then a else b.
Definition maria (o : options) (a b : g) : g := if is_maria (o_dialect o) then a else b.

Definition name := C CName.
Definition names := commas name.
Definition qualified := N_ NQualified.
Definition expr_ := N_ (NExpr false).
Definition statement := N_ NStmt.
(** The statements that go with WITH. *)
Definition data := Alt [N_ NSingle; N_ NInsert; N_ NUpdate; N_ NDelete].
Definition if_exists := Opt (words ["IF"; "EXISTS"]).
Definition if_not_exists := Opt (words ["IF"; "NOT"; "EXISTS"]).
Definition strings := N_ NStrings.
Definition where_ := Opt (Seq [W "WHERE"; expr_]).

(** The operators; an inner expression (DEFAULT, LIMIT) has few of them. *)
Definition prefix_op (inner : bool) : g :=
  if inner then Alt [T TMinus; W "NOT"] else Alt [T TMinus; W "NOT"; W "BINARY"; W "COLLATE"; T TExclamationMark].
Definition infix_op (inner : bool) : g :=
  if inner then T TAmpersand
  else Alt [one_of ["OR"; "XOR"; "AND"; "LIKE"]; words ["NOT"; "LIKE"];
            T TDoublePipe; T TDoubleAmpersand; T TEq; T TSpaceship; T TGtEq; T TGt; T TLtEq; T TLt; T TNeq;
            T TShiftLeft; T TShiftRight; T TAmpersand; T TPipe; T TMinus; T TPlus; T TDiv; T TMul].
Definition postfix_op (inner : bool) : g :=
  if inner then never
  else Alt [Seq [Opt (W "NOT"); W "IN"; paren [commas (N_ NParen)]];
            Seq [W "IS"; Opt (W "NOT"); one_of ["TRUE"; "FALSE"; "NULL"; "UNKNOWN"]]].

Definition rule (o : options) (n : nt) : g :=
  match n with
  | NQualified => Seq [name; Star (Seq [T TPeriod; name])]
  | NStrings => Seq [C CString; Star (C CString)]
  (* Data types *)
  | NWidth => paren [C (CInt usize_max)]
  | NType => Alt [
      one_of ["BOOLEAN"; "INET4"; "INET6"; "FLOAT8"; "TIMESTAMPTZ"; "DATE"; "JSON"; "BYTEA"];
      Seq [one_of ["TINYINT"; "SMALLINT"; "INTEGER"; "INT"; "BIGINT"; "TINYTEXT"; "CHAR"; "TEXT"; "MEDIUMTEXT"; "LONGTEXT"; "VARCHAR";
                   "TINYBLOB"; "BLOB"; "MEDIUMBLOB"; "LONGBLOB"; "BINARY"; "DATETIME"; "TIME"]; Opt (N_ NWidth)];
      Seq [W "VARBINARY"; N_ NWidth];
      W "REAL";
      W "FLOAT";
      pg o (words ["DOUBLE"; "PRECISION"]) (W "DOUBLE");
      Seq [W "NUMERIC"; paren [C (CInt usize_max); T TComma; C (CInt usize_max)]];
      Seq [W "TIMESTAMP"; Opt (N_ NWidth); Opt (words ["WITH"; "TIME"; "ZONE"])];
      Seq [W "ENUM"; paren [commas strings]];
      Seq [W "SET"; paren [commas strings]];
      Seq [W "BIT"; N_ NWidth];
      pg o (C CWord) never ]
  | NProperty no_as => Alt [
      one_of ["SIGNED"; "AUTO_INCREMENT"; "UNSIGNED"; "ZEROFILL"; "NULL"; "VIRTUAL"; "PERSISTENT"; "STORED"];
      words ["NOT"; "NULL"];
      Seq [W "CHARACTER"; W "SET"; name];
      Seq [W "COLLATE"; name];
      Seq [W "COMMENT"; strings];
      Seq [W "DEFAULT"; N_ (NExpr true)];
      Seq [W "UNIQUE"; Opt (W "KEY")];
      pg o (words ["GENERATED"; "ALWAYS"; "AS"; "IDENTITY"]) (words ["GENERATED"; "ALWAYS"]);
      if no_as : bool then never else Seq [W "AS"; paren [expr_]];
      words ["PRIMARY"; "KEY"];
      Seq [W "CHECK"; paren [expr_]] ]
  | NDataType no_as => Seq [N_ NType; Star (N_ (NProperty no_as))]
  (* Expressions; the inner ones end before most operators. *)
  | NExpr b => Seq [N_ (NOperand b); Star (N_ (NTail b))]
  | NOperand b => Seq [Star (prefix_op b); N_ NPrimary]
  | NTail b => Alt [Seq [infix_op b; N_ (NOperand b)]; postfix_op b]
  | NPrimary => Alt [
      one_of ["TRUE"; "FALSE"; "NULL"];
      if o_list_hack o then W "_LIST_" else never;
      strings; C (CInt u64_max); C CFloat; C CArgument; T TMul;
      Seq [W "INTERVAL"; Alt [strings; C (CInt (2 ^ 63 - 1))]; N_ NUnit];
      Seq [one_of ["TIMESTAMPADD"; "TIMESTAMPDIFF"]; paren [N_ NUnit; T TComma; N_ NOuter; T TComma; N_ NOuter]];
      Seq [W "CAST"; paren [N_ NOuter; W "AS"; N_ (NDataType false)]];
      Seq [one_of ["COUNT"; "GROUP_CONCAT"]; paren [Opt (W "DISTINCT"); N_ NOuter]];
      Seq [W "EXTRACT"; paren [N_ NUnit; W "FROM"; N_ NOuter]];
      Seq [C CCallable; N_ NCall];
      one_of ["CURRENT_TIMESTAMP"; "LOCALTIME"; "LOCALTIMESTAMP"; "UTC_TIMESTAMP"; "UTC_DATE"; "UTC_TIME"; "CURRENT_DATE"; "CURRENT_TIME"];
      Seq [C CColumn; Star (Seq [T TPeriod; Alt [T TMul; name]])];
      paren [N_ NParen];
      Seq [W "EXISTS"; paren [N_ NQuery]];
      Seq [W "CASE"; Opt expr_; Seq [Seq [W "WHEN"; expr_; W "THEN"; expr_]; Star (Seq [W "WHEN"; expr_; W "THEN"; expr_])];
           Opt (Seq [W "ELSE"; expr_]); W "END"];
      Seq [Alt [T TAtAtGlobal; T TAtAtSession]; T TPeriod; C CWord] ]
  | NCall => Seq [paren [Opt (commas (N_ NOuter))];
                  Opt (Seq [W "OVER"; paren [W "ORDER"; W "BY"; commas (N_ NOrdered)]])]
  | NOuter => Alt [N_ NSelect; expr_]
  | NParen => Alt [N_ NQuery; expr_]
  | NUnit => one_of ["MICROSECOND"; "SECOND"; "MINUTE"; "HOUR"; "DAY"; "WEEK"; "MONTH"; "QUARTER"; "YEAR"; "SECOND_MICROSECOND";
                     "MINUTE_MICROSECOND"; "MINUTE_SECOND"; "HOUR_MICROSECOND"; "HOUR_SECOND"; "HOUR_MINUTE"; "DAY_MICROSECOND";
                     "DAY_SECOND"; "DAY_MINUTE"; "DAY_HOUR"; "YEAR_MONTH"]
  (* Queries *)
  | NSelectExpr => Seq [expr_; Opt (Seq [W "AS"; name])]
  | NSelect => Seq [W "SELECT";
      Star (one_of ["ALL"; "DISTINCT"; "DISTINCTROW"; "HIGH_PRIORITY"; "STRAIGHT_JOIN"; "SQL_SMALL_RESULT"; "SQL_BIG_RESULT";
                    "SQL_BUFFER_RESULT"; "SQL_NO_CACHE"; "SQL_CALC_FOUND_ROWS"]);
      commas (N_ NSelectExpr);
      Opt (Seq [W "FROM"; commas (N_ NTableRef); where_;
                Opt (Seq [W "GROUP"; W "BY"; commas expr_]); Opt (Seq [W "HAVING"; expr_]); Opt (W "WINDOW");
                Opt (N_ NOrderBy); Opt (N_ NLimit); Opt (N_ NLocking)])]
  | NTable => Alt [
      Seq [N_ NQuery; Opt (Seq [Opt (W "AS"); name])];
      Seq [qualified; Opt (Seq [Opt (W "AS"); name]); maria o (Star (N_ NHint)) (Seq [])] ]
  | NHint => Seq [one_of ["USE"; "IGNORE"; "FORCE"]; one_of ["INDEX"; "KEY"];
                  Opt (Seq [W "FOR"; Alt [W "JOIN"; words ["GROUP"; "BY"]; words ["ORDER"; "BY"]]]); paren [names]]
  | NJoin => Alt [
      words ["INNER"; "JOIN"]; words ["CROSS"; "JOIN"]; W "JOIN"; W "STRAIGHT_JOIN";
      Seq [W "LEFT"; Opt (W "OUTER"); W "JOIN"]; Seq [W "RIGHT"; Opt (W "OUTER"); W "JOIN"];
      Seq [W "NATURAL"; Alt [words ["INNER"; "JOIN"]; Seq [W "LEFT"; Opt (W "OUTER"); W "JOIN"];
                             Seq [W "RIGHT"; Opt (W "OUTER"); W "JOIN"]; W "JOIN"]] ]
  | NJoinSpec => Alt [Seq [W "ON"; expr_]; Seq [W "USING"; names]]
  | NTableRef => Seq [N_ NTable; Star (Seq [N_ NJoin; N_ NTable; Opt (N_ NJoinSpec)])]
  | NOrdered => Seq [expr_; Opt (one_of ["ASC"; "DESC"])]
  | NOrderBy => Seq [W "ORDER"; W "BY"; commas (N_ NOrdered)]
  | NLimit => Seq [W "LIMIT"; N_ (NExpr true); Opt (Seq [Alt [T TComma; W "OFFSET"]; N_ (NExpr true)])]
  | NLocking => Seq [W "FOR"; pg o (Alt [W "UPDATE"; W "SHARE"; words ["NO"; "KEY"; "UPDATE"]; words ["KEY"; "SHARE"]]) (one_of ["UPDATE"; "SHARE"]);
                     Opt (Seq [W "OF"; names]); Opt (Alt [W "NOWAIT"; words ["SKIP"; "LOCKED"]])]
  | NSingle => Alt [paren [N_ NSingle]; N_ NSelect]
  | NQueryBottom => Alt [paren [N_ NQuery]; N_ NSelect]
  | NQuery => Seq [N_ NQueryBottom;
      Opt (Seq [W "UNION"; Opt (one_of ["ALL"; "DISTINCT"]); N_ NQueryBottom;
                Star (Seq [W "UNION"; Opt (one_of ["ALL"; "DISTINCT"]); N_ NQueryBottom]);
                Opt (N_ NOrderBy); Opt (N_ NLimit)])]
  (* Data *)
  | NReturning => Seq [W "RETURNING"; commas (N_ NSelectExpr)]
  | NInsert => Seq [
      Alt [Seq [W "INSERT"; Star (one_of ["LOW_PRIORITY"; "HIGH_PRIORITY"; "DELAYED"; "IGNORE"])];
           Seq [W "REPLACE"; Star (one_of ["LOW_PRIORITY"; "DELAYED"])]];
      Opt (W "INTO"); qualified;
      Alt [Seq [Opt (paren [names]); Alt [N_ NSelect; Seq [one_of ["VALUE"; "VALUES"]; commas (paren [commas expr_])]]];
           Seq [W "SET"; commas (Seq [name; T TEq; expr_])]];
      Opt (N_ NConflict); Opt (N_ NReturning)]
  | NConflict => maria o
      (Seq [W "ON"; W "DUPLICATE"; W "KEY"; W "UPDATE"; commas (Seq [name; T TEq; expr_])])
      (pg o (Seq [W "ON"; W "CONFLICT"; Alt [paren [names]; Seq [W "ON"; W "CONSTRAINT"; name]; Seq []]; W "DO";
                  Alt [W "NOTHING"; Seq [W "UPDATE"; W "SET"; commas (Seq [name; T TEq; expr_]); where_]]]) never)
  | NUpdate => Seq [W "UPDATE"; Star (one_of ["LOW_PRIORITY"; "IGNORE"]); commas (N_ NTableRef); W "SET";
                    commas (Seq [name; Star (Seq [T TPeriod; name]); T TEq; expr_]); where_; pg o (Opt (N_ NReturning)) (Seq [])]
  | NDelete => Seq [W "DELETE"; Star (one_of ["LOW_PRIORITY"; "QUICK"; "IGNORE"]);
                    Alt [Seq [W "FROM"; commas qualified; Opt (Seq [W "USING"; commas (N_ NTableRef)])];
                         Seq [commas qualified; W "FROM"; commas (N_ NTableRef)]];
                    where_; Opt (N_ NReturning)]
  | NDrop => Seq [W "DROP"; Opt (W "TEMPORARY"); Alt [
      Seq [W "TABLE"; if_exists; commas qualified; pg o (Opt (W "CASCADE")) (Seq [])];
      Seq [W "DATABASE"; if_exists; name];
      Seq [W "SCHEMA"; if_exists; name];
      Seq [W "EVENT"; if_exists; qualified];
      Seq [W "FUNCTION"; if_exists; qualified];
      Seq [W "INDEX"; if_exists; name; maria o (Seq [W "ON"; qualified]) (pg o (Seq []) (Opt (Seq [W "ON"; qualified])))];
      Seq [W "PROCEDURE"; if_exists; qualified];
      Seq [W "SERVER"; if_exists; name];
      Seq [W "TRIGGER"; if_exists; qualified];
      Seq [W "VIEW"; if_exists; commas qualified] ]]
  | NTruncate => Seq [W "TRUNCATE"; Opt (W "TABLE"); qualified]
  | NRename => Seq [W "RENAME"; Opt (W "TABLE"); commas (Seq [qualified; W "TO"; qualified])]
  | NWith => pg o (Seq [W "WITH"; commas (Seq [name; W "AS"; paren [data]]); data]) never
  (* Procedures *)
  | NSet => Seq [W "SET"; commas (Seq [name; T TEq; expr_])]
  | NSignal => Seq [W "SIGNAL"; W "SQLSTATE"; Opt (W "VALUE"); expr_;
      Opt (Seq [W "SET"; commas (Seq [one_of ["CLASS_ORIGIN"; "SUBCLASS_ORIGIN"; "MESSAGE_TEXT"; "MYSQL_ERRNO"; "CONSTRAINT_CATALOG";
        "CONSTRAINT_SCHEMA"; "CONSTRAINT_NAME"; "CATALOG_NAME"; "SCHEMA_NAME"; "TABLE_NAME"; "COLUMN_NAME"; "CURSOR_NAME"]; T TEq; expr_])])]
  | NReturn => Seq [W "RETURN"; expr_]
  | NStatements => Seq [Star (Seq [Star (T TSemiColon); statement; T TSemiColon]); Star (T TSemiColon); Opt statement]
  | NBlock => Seq [W "BEGIN"; N_ NStatements;
      Opt (Seq [W "EXCEPTION"; Star (Seq [W "WHEN"; name; W "THEN"; N_ (NExpr true); T TSemiColon])]); W "END"]
  | NIf => Seq [W "IF"; expr_; W "THEN"; N_ NStatements; Star (Seq [W "ELSEIF"; expr_; W "THEN"; N_ NStatements]);
                Opt (Seq [W "ELSE"; N_ NStatements]); W "END"; W "IF"]
  | NCase => Seq [W "CASE"; Opt expr_; Seq [W "WHEN"; expr_; W "THEN"; N_ NStatements]; Star (Seq [W "WHEN"; expr_; W "THEN"; N_ NStatements]);
                  Opt (Seq [W "ELSE"; N_ NStatements]); W "END"]
  | NDo => Seq [W "DO"; T TDoubleDollar; N_ NBlock; T TDoubleDollar]
  (* CREATE *)
  | NCreate => Seq [W "CREATE"; Star (N_ NCreateOption);
                    Alt [N_ NCreateIndex; N_ NCreateTable; N_ NCreateView; N_ NCreateFunction; N_ NCreateTrigger; N_ NCreateType]]
  | NCreateOption => Alt [
      words ["OR"; "REPLACE"]; W "TEMPORARY"; W "UNIQUE";
      Seq [W "ALGORITHM"; T TEq; one_of ["UNDEFINED"; "MERGE"; "TEMPTABLE"]];
      Seq [W "DEFINER"; T TEq; name; T TAt; name];
      Seq [W "SQL"; W "SECURITY"; one_of ["DEFINER"; "USER"]] ]
  | NCreateIndex => Seq [W "INDEX"; if_not_exists; name; W "ON"; qualified; Opt (words ["USING"; "GIST"]);
      paren [commas (Seq [name; pg o (Opt (one_of ["TEXT_PATTERN_OPS"; "VARCHAR_PATTERN_OPS"; "BPCHAR_PATTERN_OPS"; "INT8_OPS"; "INT4_OPS"; "INT2_OPS"])) (Seq [])])];
      maria o (Seq []) where_]
  | NCreateTable => Seq [W "TABLE"; if_not_exists; qualified; paren [Opt (commas (N_ NDefinition))]; Star (N_ NTableOption)]
  | NDefinition => Alt [
      Seq [W "CONSTRAINT"; name; W "FOREIGN"; W "KEY"; paren [names]; W "REFERENCES"; name; paren [names];
           Opt (Seq [W "ON"; W "DELETE"; Alt [W "CASCADE"; W "DELETE"; W "RESTRICT"; words ["SET"; "NULL"]]])];
      Seq [name; N_ (NDataType false)] ]
  | NTableOption => Alt [
      Seq [one_of ["ENGINE"; "CHARSET"; "COLLATE"; "ROW_FORMAT"]; Opt (T TEq); name];
      Seq [W "DEFAULT"; one_of ["CHARSET"; "COLLATE"]; Opt (T TEq); name];
      Seq [W "COMMENT"; Opt (T TEq); strings];
      W "STRICT" ]
  | NCreateView => Seq [W "VIEW"; if_not_exists; qualified; W "AS"; N_ NQuery]
  | NCreateFunction => Seq [W "FUNCTION"; if_not_exists; name; paren [commas (N_ NParam)]; W "RETURNS"; N_ (NDataType true);
      pg o (Opt (Seq [W "AS"; N_ NDollarBody])) (Seq []); Star (N_ NCharacteristic); maria o statement (Seq [])]
  | NParam => Seq [Opt (Alt [Seq [W "IN"; Opt (W "OUT")]; W "OUT"; W "INOUT"]); name; N_ (NDataType false)]
  | NCharacteristic => Alt [
      Seq [W "LANGUAGE"; one_of ["SQL"; "PLPGSQL"]]; words ["NOT"; "DETERMINISTIC"]; W "DETERMINISTIC"; words ["CONTAINS"; "SQL"];
      words ["NO"; "SQL"]; words ["READS"; "SQL"; "DATA"]; words ["MODIFIES"; "SQL"; "DATA"]; Seq [W "COMMENT"; strings];
      Seq [W "SQL"; W "SECURITY"; one_of ["DEFINER"; "USER"]] ]
  | NDollarBody => Seq [T TDoubleDollar; Star (C CAny); T TDoubleDollar]
  | NCreateTrigger => Seq [W "TRIGGER"; if_not_exists; name; one_of ["AFTER"; "BEFORE"]; one_of ["UPDATE"; "INSERT"; "DELETE"]; W "ON"; name;
                           W "FOR"; W "EACH"; W "ROW"; statement]
  | NCreateType => pg o (Seq [W "TYPE"; name; W "AS"; W "ENUM"; paren [commas strings]]) never
  (* ALTER *)
  | NAlter => Seq [W "ALTER"; Opt (W "ONLINE"); Opt (W "IGNORE"); W "TABLE"; if_exists; qualified; commas (N_ NAlteration)]
  | NAlteration => Alt [
      N_ NAdd;
      Seq [W "MODIFY"; Opt (W "COLUMN"); if_exists; name; N_ (NDataType false)];
      Seq [W "OWNER"; W "TO"; name];
      Seq [W "DROP"; W "COLUMN"; name; Opt (W "CASCADE")];
      Seq [W "ALTER"; W "COLUMN"; name; N_ NAlterColumn] ]
  | NAdd => Seq [W "ADD"; Opt (Seq [W "CONSTRAINT"; Opt name]); Alt [
      Seq [W "FOREIGN"; W "KEY"; if_not_exists; Opt name; N_ NIndexCols; W "REFERENCES"; name; paren [names]; Star (N_ NForeignOn)];
      Seq [Alt [words ["PRIMARY"; "KEY"]; one_of ["INDEX"; "KEY"]; Seq [one_of ["FULLTEXT"; "SPATIAL"; "UNIQUE"]; one_of ["INDEX"; "KEY"]]];
           if_not_exists; Opt name; Opt (Seq [W "USING"; one_of ["BTREE"; "HASH"; "RTREE"]]); N_ NIndexCols; Star (N_ NIndexOption)];
      Seq [W "COLUMN"; maria o (Seq []) if_not_exists; name; N_ (NDataType false)] ]]
  | NIndexCols => paren [commas (Seq [name; Opt (paren [C (CInt u32_max)])])]
  | NIndexOption => Alt [Seq [W "USING"; one_of ["BTREE"; "HASH"; "RTREE"]]; Seq [W "COMMENT"; strings]]
  | NForeignOn => Seq [W "ON"; one_of ["UPDATE"; "DELETE"]; Alt [W "RESTRICT"; W "CASCADE"; words ["SET"; "NULL"]; words ["NO"; "ACTION"]]]
  | NAlterColumn => Alt [
      Seq [W "SET"; Alt [Seq [W "DEFAULT"; expr_]; words ["NOT"; "NULL"]]];
      Seq [W "DROP"; Alt [W "DEFAULT"; words ["NOT"; "NULL"]]];
      Seq [W "TYPE"; N_ (NDataType false)] ]
  (* Statements *)
  | NStmt => Alt [
      N_ NCreate; N_ NDrop; N_ NQuery; N_ NDelete; N_ NInsert; N_ NUpdate; N_ NSet; N_ NSignal; N_ NBlock; W "BEGIN"; W "END";
      words ["START"; "TRANSACTION"]; W "COMMIT"; N_ NIf; N_ NReturn; N_ NAlter; N_ NCase; N_ NDo; N_ NTruncate; N_ NRename; N_ NWith ]
  end.

(** What the right-hand sides derive. *)
Inductive derives (o : options) : g -> list tok -> Prop :=
| d_word k t : is_kw t k = true -> derives o (W k) [t]
| d_token t : derives o (T t) [t]
| d_class c t : in_class o c t = true -> derives o (C c) [t]
| d_rule n ts : derives o (rule o n) ts -> derives o (N_ n) ts
| d_nil : derives o (Seq []) []
| d_cons a l ts us : derives o a ts -> derives o (Seq l) us -> derives o (Seq (a :: l)) (ts ++ us)
| d_alt a l ts : In a l -> derives o a ts -> derives o (Alt l) ts
| d_none a : derives o (Opt a) []
| d_some a ts : derives o a ts -> derives o (Opt a) ts
| d_stop a : derives o (Star a) []
| d_more a ts us : derives o a ts -> derives o (Star a) us -> derives o (Star a) (ts ++ us).

(** Scripts: [script o d ts n]: with the delimiter [d] in force, [ts] are [n] statements, every one of them
    followed by the delimiter, with further delimiters and DELIMITER lines between them. *)
Inductive script (o : options) : tok -> list tok -> nat -> Prop :=
| script_end d : script o d [] 0
| script_delim d ts n : script o d ts n -> script o d (d :: ts) n
| script_set d k x ts n : is_kw k "DELIMITER" = true -> script o x ts n -> script o d (k :: x :: ts) n
| script_stmt d us ts n : derives o (N_ NStmt) us -> script o d ts n -> script o d (us ++ d :: ts) (S n).
