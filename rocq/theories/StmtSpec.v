(** Specification: a grammar, on tokens, of statements other than queries.  As in
    [GrammarSpec.v], [.._is o ts x] says that the tokens [ts] are such a phrase and that [x] is
    its AST, every part in its place and with the spans of its tokens.  Nothing here refers to
    the parser; [StmtGrammar.v] and [GrammarStmt.v] prove that the parser reads what the grammar
    generates. *)
From Verif Require Export GrammarSpec.
Local Open Scope string_scope.
Local Open Scope list_scope.

Section Spec.
Variable o : reading.
Local Notation opt_word := (opt_word o). Local Notation ident_is := (ident_is o).

(** ** Words *)
(** Words from a table, such as the flags of a statement. *)
Inductive flags_of (tbl : list (string * string)) : tks -> list tagged -> Prop :=
| fo_nil : flags_of tbl [] []
| fo_cons k c t s ts l : In (k, c) tbl -> kw_tok o k t -> flags_of tbl ts l -> flags_of tbl ((t, s) :: ts) (mkTag c s :: l).
(** IF EXISTS. *)
Inductive if_exists_is : tks -> option span -> Prop :=
| ie_none : if_exists_is [] None
| ie_some t s t' s' : kw_tok o "IF" t -> kw_tok o "EXISTS" t' -> if_exists_is [(t, s); (t', s')] (Some (join s' s)).
(** A column: names separated by dots. *)
Inductive path_is : tks -> list ident -> Prop :=
| pt_one t v s : name_tok o t v -> path_is [(t, s)] [mkIdent v s]
| pt_more t v s d ts l : name_tok o t v -> path_is ts l -> path_is ((t, s) :: (TPeriod, d) :: ts) (mkIdent v s :: l).

(** ** Assignments *)
Inductive assign_is : tks -> ident * expr -> Prop :=
| as_value t v s e ts x : name_tok o t v -> expr_is o false ts x -> assign_is ((t, s) :: (TEq, e) :: ts) (mkIdent v s, x).
Inductive pair_is : tks -> set_pair expr -> Prop :=
| pr_value' t v s e ts x : name_tok o t v -> expr_is o false ts x -> pair_is ((t, s) :: (TEq, e) :: ts) (mkSetPair (mkIdent v s) e x).
Inductive column_is : tks -> list ident * expr -> Prop :=
| cl_value cs c e ts x : path_is cs c -> expr_is o false ts x -> column_is (cs ++ (TEq, e) :: ts) (c, x).

(** ** Clauses *)
Inductive returning_is : tks -> option (span * list (select_expr expr)) -> Prop :=
| rt_none : returning_is [] None
| rt_some t s ts l : kw_tok o "RETURNING" t -> selection_is o ts l -> returning_is ((t, s) :: ts) (Some (s, l)).
(** USING in DELETE. *)
Inductive using_is : tks -> list (tref expr stmt) -> Prop :=
| us_none : using_is [] []
| us_some t s ts l : kw_tok o "USING" t -> from_is o ts l -> using_is ((t, s) :: ts) l.

(** ** DELETE and UPDATE *)
Definition delete_words : list (string * string) := [("LOW_PRIORITY", "LowPriority"); ("QUICK", "Quick"); ("IGNORE", "Ignore")].
Definition update_words : list (string * string) := [("LOW_PRIORITY", "LowPriority"); ("IGNORE", "Ignore")].
Inductive delete_is : tks -> delete expr stmt -> Prop :=
| de_from t s fs fl t' s' ts l us u wh w rs r : kw_tok o "DELETE" t -> flags_of delete_words fs fl -> kw_tok o "FROM" t' -> commas (qname_is o) ts l ->
    using_is us u -> cond_is o "WHERE" wh w -> returning_is rs r ->
    delete_is ((t, s) :: fs ++ (t', s') :: ts ++ us ++ wh ++ rs) (mkDelete s fl s' l u w r)
| de_tables t s fs fl t' s' ts l us u wh w rs r : kw_tok o "DELETE" t -> flags_of delete_words fs fl -> commas (qname_is o) ts l -> is_kw (hd_tok ts) "QUICK" = false ->
    kw_tok o "FROM" t' -> from_is o us u -> cond_is o "WHERE" wh w -> returning_is rs r ->
    delete_is ((t, s) :: fs ++ ts ++ (t', s') :: us ++ wh ++ rs) (mkDelete s fl s' l u w r).
(** RETURNING is for PostgreSQL only. *)
Inductive update_is : tks -> update expr stmt -> Prop :=
| up_set' t s fs fl ts l t' s' cs c wh w rs r : kw_tok o "UPDATE" t -> flags_of update_words fs fl -> from_is o ts l -> kw_tok o "SET" t' -> commas column_is cs c ->
    cond_is o "WHERE" wh w -> returning_is rs r -> (r = None \/ o_dialect o = PostgreSQL) ->
    update_is ((t, s) :: fs ++ ts ++ (t', s') :: cs ++ wh ++ rs) (mkUpdate s fl l s' c w r).

(** ** INSERT and REPLACE *)
Definition insert_words : list (string * string) :=
  [("LOW_PRIORITY", "LowPriority"); ("HIGH_PRIORITY", "HighPriority"); ("DELAYED", "Delayed"); ("IGNORE", "Ignore")].
Definition replace_words : list (string * string) := [("LOW_PRIORITY", "LowPriority"); ("DELAYED", "Delayed")].
(** The statement; its flags. *)
Inductive insert_word : tok -> string -> list (string * string) -> Prop :=
| iw_insert t : any_case "INSERT" t -> insert_word t "Insert" insert_words
| iw_replace t : any_case "REPLACE" t -> insert_word t "Replace" replace_words.
(** The columns. *)
Inductive columns_are : tks -> list ident -> Prop :=
| co_none : columns_are [] []
| co_some s1 ts s2 l : commas ident_is ts l -> columns_are ((TLParen, s1) :: ts ++ [(TRParen, s2)]) l.
Inductive row_is : tks -> list expr -> Prop :=
| ro_row s1 ts s2 l : commas (expr_is o false) ts l -> row_is ((TLParen, s1) :: ts ++ [(TRParen, s2)]) l.
(** VALUES, SELECT or SET; the flag: it is a SELECT with FROM. *)
Inductive source_is (columns : list ident) : bool -> tks -> option (select expr stmt) -> option (span * list (list expr)) -> option (set_pairs expr) -> Prop :=
| sr_values t s ts l : any_case "VALUES" t \/ any_case "VALUE" t -> commas row_is ts l -> source_is columns false ((t, s) :: ts) None (Some (s, l)) None
| sr_select b ts q : select_is o b ts q -> source_is columns (match b with WithFrom => true | _ => false end) ts (Some q) None None
| sr_set t s ts l : columns = [] -> kw_tok o "SET" t -> commas pair_is ts l -> source_is columns false ((t, s) :: ts) None None (Some (mkSetPairs s l)).
(** ON CONFLICT ... *)
Inductive target_is : tks -> on_conflict_target -> Prop :=
| tg_none : target_is [] OCTNone
| tg_columns s1 ts s2 l : commas ident_is ts l -> target_is ((TLParen, s1) :: ts ++ [(TRParen, s2)]) (OCTColumns l)
| tg_constraint t s t' s' t2 v s2 : kw_tok o "ON" t -> kw_tok o "CONSTRAINT" t' -> name_tok o t2 v ->
    target_is [(t, s); (t', s'); (t2, s2)] (OCTConstraint (join s' s) (mkIdent v s2)).
Inductive action_is : tks -> on_conflict_action expr -> Prop :=
| ac_nothing t s t' s' : kw_tok o "DO" t -> kw_tok o "NOTHING" t' -> action_is [(t, s); (t', s')] (OCANothing (join s s'))
| ac_update t s t1 s1 t2 s2 ts l : kw_tok o "DO" t -> kw_tok o "UPDATE" t1 -> kw_tok o "SET" t2 -> commas assign_is ts l ->
    action_is ((t, s) :: (t1, s1) :: (t2, s2) :: ts) (OCAUpdate (join s (join s2 s1)) l None)
| ac_where t s t1 s1 t2 s2 ts l t3 s3 us e : kw_tok o "DO" t -> kw_tok o "UPDATE" t1 -> kw_tok o "SET" t2 -> commas assign_is ts l ->
    kw_tok o "WHERE" t3 -> expr_is o false us e ->
    action_is ((t, s) :: (t1, s1) :: (t2, s2) :: ts ++ (t3, s3) :: us) (OCAUpdate (join s (join s2 s1)) l (Some (s3, e))).
Inductive insert_on_is : tks -> option (set_pairs expr) -> option (on_conflict expr) -> Prop :=
| io_none : insert_on_is [] None None
| io_duplicate t s t1 s1 t2 s2 t3 s3 ts l : o_dialect o = MariaDB ->
    kw_tok o "ON" t -> kw_tok o "DUPLICATE" t1 -> kw_tok o "KEY" t2 -> kw_tok o "UPDATE" t3 -> commas pair_is ts l ->
    insert_on_is ((t, s) :: (t1, s1) :: (t2, s2) :: (t3, s3) :: ts) (Some (mkSetPairs (join s (join s3 (join s2 s1))) l)) None
| io_conflict t s t1 s1 gs g cs a : o_dialect o = PostgreSQL ->
    kw_tok o "ON" t -> kw_tok o "CONFLICT" t1 -> target_is gs g -> action_is cs a ->
    insert_on_is ((t, s) :: (t1, s1) :: gs ++ cs) None (Some (mkOnConflict (join s s1) g a)).
Inductive insert_is : tks -> insert_replace expr stmt -> Prop :=
| in_insert t s c tbl fs fl is i qs q cs cl b ss sel val set ons dup conf rs r :
    insert_word t c tbl -> flags_of tbl fs fl -> opt_word "INTO" is i -> qname_is o qs q -> columns_are cs cl ->
    source_is cl b ss sel val set -> insert_on_is ons dup conf -> (b = true -> ons = []) -> returning_is rs r ->
    insert_is ((t, s) :: fs ++ is ++ qs ++ cs ++ ss ++ ons ++ rs) (mkInsertReplace (mkTag c s) fl i q cl val sel set dup conf r).

(** ** SET, SIGNAL and RETURN *)
Inductive set_is : tks -> set_ expr -> Prop :=
| st_set t s ts l : kw_tok o "SET" t -> commas assign_is ts l -> set_is ((t, s) :: ts) (mkSet s l).
Definition signal_items : list (string * string) := [
  ("CLASS_ORIGIN", "ClassOrigin"); ("SUBCLASS_ORIGIN", "SubclassOrigin"); ("MESSAGE_TEXT", "MessageText"); ("MYSQL_ERRNO", "MysqlErrno");
  ("CONSTRAINT_CATALOG", "ConstraintCatalog"); ("CONSTRAINT_SCHEMA", "ConstraintSchema"); ("CONSTRAINT_NAME", "ConstraintName");
  ("CATALOG_NAME", "CatalogName"); ("SCHEMA_NAME", "SchemaName"); ("TABLE_NAME", "TableName"); ("COLUMN_NAME", "ColumnName"); ("CURSOR_NAME", "CursorName") ].
Inductive item_is : tks -> tagged * span * expr -> Prop :=
| im_item k c t s e ts x : In (k, c) signal_items -> any_case k t -> expr_is o false ts x -> item_is ((t, s) :: (TEq, e) :: ts) (mkTag c s, e, x).
Inductive signal_set_is : tks -> option span -> list (tagged * span * expr) -> Prop :=
| ss_none : signal_set_is [] None []
| ss_some t s ts l : kw_tok o "SET" t -> commas item_is ts l -> signal_set_is ((t, s) :: ts) (Some s) l.
Inductive signal_is : tks -> signal expr -> Prop :=
| sg_is t s t' s' vs v es e ss set l : kw_tok o "SIGNAL" t -> kw_tok o "SQLSTATE" t' -> opt_word "VALUE" vs v -> expr_is o false es e ->
    (v = None -> is_kw (hd_tok es) "VALUE" = false) -> signal_set_is ss set l ->
    signal_is ((t, s) :: (t', s') :: vs ++ es ++ ss) (mkSignal s s' v e set l).
Inductive return_is : tks -> return_ expr -> Prop :=
| re_is t s ts e : kw_tok o "RETURN" t -> expr_is o false ts e -> return_is ((t, s) :: ts) (mkReturn s e).

(** ** DROP, TRUNCATE and RENAME *)
(** Objects with a qualified name, and with a simple one. *)
Definition drop_q_kinds : list (string * (drop_q -> stmt)) :=
  [("EVENT", SDropEvent); ("FUNCTION", SDropFunction); ("PROCEDURE", SDropProcedure); ("TRIGGER", SDropTrigger)].
Definition drop_i_kinds : list (string * (drop_i -> stmt)) :=
  [("DATABASE", SDropDatabase); ("SCHEMA", SDropDatabase); ("SERVER", SDropServer)].
Inductive drop_is : tks -> stmt -> Prop :=
| dp_table t s ps p t' s' is i ts l cs c : kw_tok o "DROP" t -> opt_word "TEMPORARY" ps p -> kw_tok o "TABLE" t' -> if_exists_is is i ->
    commas (qname_is o) ts l -> opt_word "CASCADE" cs c -> (c = None \/ o_dialect o = PostgreSQL) ->
    drop_is ((t, s) :: ps ++ (t', s') :: is ++ ts ++ cs) (SDropTable (mkDropTable s p s' i l c))
| dp_view t s ps p t' s' is i ts l : kw_tok o "DROP" t -> opt_word "TEMPORARY" ps p -> kw_tok o "VIEW" t' -> if_exists_is is i ->
    commas (qname_is o) ts l ->
    drop_is ((t, s) :: ps ++ (t', s') :: is ++ ts) (SDropView (mkDropView s p s' i l))
| dp_q t s k K t' s' is i ts q : In (k, K) drop_q_kinds -> kw_tok o "DROP" t -> kw_tok o k t' -> if_exists_is is i -> qname_is o ts q ->
    drop_is ((t, s) :: (t', s') :: is ++ ts) (K (mkDropQ s s' i q))
| dp_i t s k K t' s' is i t2 v s2 : In (k, K) drop_i_kinds -> kw_tok o "DROP" t -> kw_tok o k t' -> if_exists_is is i -> name_tok o t2 v ->
    drop_is ((t, s) :: (t', s') :: is ++ [(t2, s2)]) (K (mkDropI s s' i (mkIdent v s2)))
(** DROP INDEX names the table in MariaDB, and not in PostgreSQL. *)
| dp_index t s t' s' is i t2 v s2 : kw_tok o "DROP" t -> kw_tok o "INDEX" t' -> if_exists_is is i -> name_tok o t2 v -> o_dialect o <> MariaDB ->
    drop_is ((t, s) :: (t', s') :: is ++ [(t2, s2)]) (SDropIndex (mkDropIndex s s' i (mkIdent v s2) None))
| dp_index_on t s t' s' is i t2 v s2 t3 s3 ts q : kw_tok o "DROP" t -> kw_tok o "INDEX" t' -> if_exists_is is i -> name_tok o t2 v ->
    kw_tok o "ON" t3 -> qname_is o ts q -> o_dialect o <> PostgreSQL ->
    drop_is ((t, s) :: (t', s') :: is ++ (t2, s2) :: (t3, s3) :: ts) (SDropIndex (mkDropIndex s s' i (mkIdent v s2) (Some (s3, q)))).
Inductive truncate_is : tks -> truncate_table -> Prop :=
| tr_is t s ws w ts q : kw_tok o "TRUNCATE" t -> opt_word "TABLE" ws w -> qname_is o ts q -> truncate_is ((t, s) :: ws ++ ts) (mkTruncate s w q).
Inductive renamed_is : tks -> table_to_table -> Prop :=
| rd_is ts q t s us q' : qname_is o ts q -> kw_tok o "TO" t -> qname_is o us q' -> renamed_is (ts ++ (t, s) :: us) (mkT2T q s q').
Inductive rename_is : tks -> rename_table -> Prop :=
| rn_is t s ws w ts l : kw_tok o "RENAME" t -> opt_word "TABLE" ws w -> commas renamed_is ts l -> rename_is ((t, s) :: ws ++ ts) (mkRename s w l).

(** ** Statements *)
Inductive simple_is : tks -> stmt -> Prop :=
| sm_delete ts x : delete_is ts x -> simple_is ts (SDelete x)
| sm_update ts x : update_is ts x -> simple_is ts (SUpdate x)
| sm_insert ts x : insert_is ts x -> simple_is ts (SInsertReplace x)
| sm_set ts x : set_is ts x -> simple_is ts (SSet x)
| sm_signal ts x : signal_is ts x -> simple_is ts (SSignal x)
| sm_return ts x : return_is ts x -> simple_is ts (SReturn x)
| sm_drop ts x : drop_is ts x -> simple_is ts x
| sm_truncate ts x : truncate_is ts x -> simple_is ts (STruncateTable x)
| sm_rename ts x : rename_is ts x -> simple_is ts (SRenameTable x).
End Spec.
