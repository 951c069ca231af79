(** Specification: a grammar, on tokens, of the statements that define and change tables, views,
    indexes and types.  As in [GrammarSpec.v], [.._is o ts x] says that the tokens [ts] are such a
    phrase and that [x] is its AST, every part in its place and with the spans of its tokens.
    Nothing here refers to the parser; [DdlGrammar.v] proves that the parser reads what the
    grammar generates. *)
From Verif Require Export StmtSpec.
Local Open Scope string_scope.
Local Open Scope list_scope.

(** Phrases one after the other. *)
Inductive many {A} (P : tks -> A -> Prop) : tks -> list A -> Prop :=
| mn_nil : many P [] []
| mn_cons ts a us l : P ts a -> many P us l -> many P (ts ++ us) (a :: l).

Section Spec.
Variable o : reading.
Local Notation opt_word := (opt_word o). Local Notation ident_is := (ident_is o). Local Notation if_exists_is := (if_exists_is o).

(** A name that is not written as a string. *)
Definition plain_tok (t : tok) (v : text) : Prop := name_tok o t v /\ exists k, t = TIdent v k.
Inductive opt_name_is : tks -> option ident -> Prop :=
| on_no : opt_name_is [] None
| on_name t v s : plain_tok t v -> opt_name_is [(t, s)] (Some (mkIdent v s)).
(** IF NOT EXISTS. *)
Inductive if_not_exists_is : tks -> option span -> Prop :=
| ne_none : if_not_exists_is [] None
| ne_some t s t1 s1 t2 s2 : kw_tok o "IF" t -> kw_tok o "NOT" t1 -> kw_tok o "EXISTS" t2 ->
    if_not_exists_is [(t, s); (t1, s1); (t2, s2)] (Some (join (join s2 s1) s)).
(** An optional [=]. *)
Inductive opt_eq : tks -> Prop :=
| oe_none : opt_eq []
| oe_some s : opt_eq [(TEq, s)].
(** Names in parentheses. *)
Inductive names_are : tks -> list ident -> Prop :=
| nm_are s1 ts s2 l : commas ident_is ts l -> names_are ((TLParen, s1) :: ts ++ [(TRParen, s2)]) l.

(** ** CREATE *)
Definition view_algorithms : list (string * string) := [("UNDEFINED", "Undefined"); ("MERGE", "Merge"); ("TEMPTABLE", "TempTable")].
Definition security_words : list (string * string) := [("DEFINER", "SqlSecurityDefiner"); ("USER", "SqlSecurityUser")].
Inductive create_option_is : tks -> create_option -> Prop :=
| cp_replace t s t' s' : kw_tok o "OR" t -> kw_tok o "REPLACE" t' -> create_option_is [(t, s); (t', s')] (COTag (mkTag "OrReplace" (join s' s)))
| cp_temporary t s : kw_tok o "TEMPORARY" t -> create_option_is [(t, s)] (COTag (mkTag "Temporary" s))
| cp_unique t s : kw_tok o "UNIQUE" t -> create_option_is [(t, s)] (COTag (mkTag "Unique" s))
| cp_algorithm k c t s e t' s' : In (k, c) view_algorithms -> kw_tok o "ALGORITHM" t -> kw_tok o k t' ->
    create_option_is [(t, s); (TEq, e); (t', s')] (COAlgorithm s (mkTag c s'))
| cp_definer t s e u v s1 a h w s2 : kw_tok o "DEFINER" t -> name_tok o u v -> name_tok o h w ->
    create_option_is [(t, s); (TEq, e); (u, s1); (TAt, a); (h, s2)] (CODefiner s (mkIdent v s1) (mkIdent w s2))
| cp_security k c t s t1 s1 t2 s2 : In (k, c) security_words -> kw_tok o "SQL" t -> kw_tok o "SECURITY" t1 -> kw_tok o k t2 ->
    create_option_is [(t, s); (t1, s1); (t2, s2)] (COSecurity c (join s1 s) s2).
(** CREATE and the options, before the word for what is created. *)
Inductive create_is : tks -> span -> list create_option -> Prop :=
| cr_is t s os l : kw_tok o "CREATE" t -> many create_option_is os l -> create_is ((t, s) :: os) s l.

(** *** Views, indexes and types *)
Inductive create_view_is : tks -> stmt -> Prop :=
| vw_is hs s l t s1 is i ns q t' s2 ts x : create_is hs s l -> kw_tok o "VIEW" t -> if_not_exists_is is i -> qname_is o ns q ->
    kw_tok o "AS" t' -> query_is o ts x ->
    create_view_is (hs ++ (t, s1) :: is ++ ns ++ (t', s2) :: ts) (SCreateView (mkCreateView s l s1 i q s2 x)).
(** A column of an index; operator classes are for PostgreSQL only. *)
Definition operator_classes : list string :=
  ["TEXT_PATTERN_OPS"; "VARCHAR_PATTERN_OPS"; "BPCHAR_PATTERN_OPS"; "INT8_OPS"; "INT4_OPS"; "INT2_OPS"].
Inductive index_column_is : tks -> ident -> Prop :=
| xc_name t v s : name_tok o t v -> index_column_is [(t, s)] (mkIdent v s)
| xc_class t v s k t' s' : name_tok o t v -> In k operator_classes -> any_case k t' -> o_dialect o = PostgreSQL ->
    index_column_is [(t, s); (t', s')] (mkIdent v s).
Inductive using_gist_is : tks -> list tagged -> Prop :=
| ug_none : using_gist_is [] []
| ug_some t s t' s' : kw_tok o "USING" t -> kw_tok o "GIST" t' -> using_gist_is [(t, s); (t', s')] [mkTag "UsingGist" (join s' s)].
(** The condition of a partial index; not for MariaDB. *)
Inductive partial_is : tks -> option (span * expr) -> Prop :=
| pl_none : partial_is [] None
| pl_some t s ts e : o_dialect o <> MariaDB -> kw_tok o "WHERE" t -> expr_is o false ts e -> partial_is ((t, s) :: ts) (Some (s, e)).
Inductive create_index_is : tks -> stmt -> Prop :=
| xi_is hs s l t s1 is i t1 v s2 t2 s3 ns q us u p1 cs cl p2 ws w : create_is hs s l -> kw_tok o "INDEX" t -> if_not_exists_is is i -> name_tok o t1 v ->
    kw_tok o "ON" t2 -> qname_is o ns q -> using_gist_is us u -> commas index_column_is cs cl -> partial_is ws w ->
    create_index_is (hs ++ (t, s1) :: is ++ (t1, s2) :: (t2, s3) :: ns ++ us ++ (TLParen, p1) :: cs ++ (TRParen, p2) :: ws)
      (SCreateIndex (mkCreateIndex s l s1 (mkIdent v s2) i s3 q u p1 cl p2 w)).
(** CREATE TYPE is for PostgreSQL only. *)
Inductive create_type_is : tks -> stmt -> Prop :=
| ty_is hs s l t s1 t1 v s2 t2 s3 t3 s4 p1 ts x p2 : o_dialect o = PostgreSQL -> create_is hs s l -> kw_tok o "TYPE" t -> name_tok o t1 v ->
    kw_tok o "AS" t2 -> kw_tok o "ENUM" t3 -> commas string_is ts x ->
    create_type_is (hs ++ (t, s1) :: (t1, s2) :: (t2, s3) :: (t3, s4) :: (TLParen, p1) :: ts ++ [(TRParen, p2)])
      (SCreateTypeEnum (mkCreateTypeEnum s l s1 (mkIdent v s2) (join s4 s3) x)).

(** *** Tables *)
(** IF NOT EXISTS in CREATE TABLE: the range from the first word to the last. *)
Inductive table_not_exists_is : tks -> option span -> Prop :=
| tn_none : table_not_exists_is [] None
| tn_some t s t1 s1 t2 s2 : kw_tok o "IF" t -> kw_tok o "NOT" t1 -> kw_tok o "EXISTS" t2 ->
    table_not_exists_is [(t, s); (t1, s1); (t2, s2)] (Some (fst s, snd (join s2 s1))).
(** What ON DELETE does; the AST does not keep it. *)
Inductive on_delete_is : tks -> Prop :=
| dl_none : on_delete_is []
| dl_cascade t s t1 s1 t2 s2 k : kw_tok o "ON" t -> kw_tok o "DELETE" t1 -> In k ["CASCADE"; "RESTRICT"] -> kw_tok o k t2 -> on_delete_is [(t, s); (t1, s1); (t2, s2)]
| dl_null t s t1 s1 t2 s2 t3 s3 : kw_tok o "ON" t -> kw_tok o "DELETE" t1 -> kw_tok o "SET" t2 -> kw_tok o "NULL" t3 ->
    on_delete_is [(t, s); (t1, s1); (t2, s2); (t3, s3)].
(** A column, or a named foreign key, of which the AST keeps the name. *)
Inductive definition_is : tks -> create_definition expr -> Prop :=
| df_column b t v s ts d : plain_tok t v -> dtype_is o false b ts d -> definition_is ((t, s) :: ts) (CDColumn (mkIdent v s) d)
| df_foreign t s t1 v s1 t2 s2 t3 s3 cs l t4 s4 t5 v5 s5 cs' l' ds :
    kw_tok o "CONSTRAINT" t -> name_tok o t1 v -> kw_tok o "FOREIGN" t2 -> kw_tok o "KEY" t3 -> names_are cs l ->
    kw_tok o "REFERENCES" t4 -> name_tok o t5 v5 -> names_are cs' l' -> on_delete_is ds ->
    definition_is ((t, s) :: (t1, s1) :: (t2, s2) :: (t3, s3) :: cs ++ (t4, s4) :: (t5, s5) :: cs' ++ ds) (CDConstraint s (mkIdent v s1)).
Inductive definitions_are : tks -> list (create_definition expr) -> Prop :=
| ds_none : definitions_are [] []
| ds_some ts l : commas definition_is ts l -> definitions_are ts l.
Definition table_words : list (string * string) := [("ENGINE", "Engine"); ("CHARSET", "CharSet"); ("COLLATE", "Collate"); ("ROW_FORMAT", "RowFormat")].
Definition table_defaults : list (string * string) := [("CHARSET", "DefaultCharSet"); ("COLLATE", "DefaultCollate")].
Inductive table_option_is : tks -> table_option -> Prop :=
| to_word k c t s es t' v s' : In (k, c) table_words -> kw_tok o k t -> opt_eq es -> name_tok o t' v ->
    table_option_is ((t, s) :: es ++ [(t', s')]) (TOIdent c s (mkIdent v s'))
| to_default k c t s t1 s1 es t' v s' : In (k, c) table_defaults -> kw_tok o "DEFAULT" t -> kw_tok o k t1 -> opt_eq es -> name_tok o t' v ->
    table_option_is ((t, s) :: (t1, s1) :: es ++ [(t', s')]) (TOIdent c s (mkIdent v s'))
| to_comment t s es ts x : kw_tok o "COMMENT" t -> opt_eq es -> string_is ts x -> table_option_is ((t, s) :: es ++ ts) (TOString "Comment" s x)
| to_strict t s : kw_tok o "STRICT" t -> table_option_is [(t, s)] (TOPlain "Strict" s).
Inductive create_table_is : tks -> stmt -> Prop :=
| tb_is hs s l t s1 is i ns q p1 ds dl p2 os ol : create_is hs s l -> kw_tok o "TABLE" t -> table_not_exists_is is i -> qname_is o ns q ->
    definitions_are ds dl -> many table_option_is os ol ->
    create_table_is (hs ++ (t, s1) :: is ++ ns ++ (TLParen, p1) :: ds ++ (TRParen, p2) :: os) (SCreateTable (mkCreateTable s l s1 q i dl ol)).

(** ** ALTER TABLE *)
Inductive constraint_is : tks -> option (span * option ident) -> Prop :=
| ct_none : constraint_is [] None
| ct_some t s ns n : kw_tok o "CONSTRAINT" t -> opt_name_is ns n -> constraint_is ((t, s) :: ns) (Some (s, n)).
(** A column of an index, with a length. *)
Inductive index_col_is : tks -> index_col -> Prop :=
| il_name t v s : name_tok o t v -> index_col_is [(t, s)] (mkIndexCol (mkIdent v s) None)
| il_sized t v s s1 w s2 s3 : name_tok o t v -> (digits_value w <= u32_max)%N ->
    index_col_is [(t, s); (TLParen, s1); (TInteger w, s2); (TRParen, s3)] (mkIndexCol (mkIdent v s) (Some (digits_value w, s2))).
Inductive index_cols_are : tks -> list index_col -> Prop :=
| xs_are s1 ts s2 l : commas index_col_is ts l -> index_cols_are ((TLParen, s1) :: ts ++ [(TRParen, s2)]) l.
Definition index_methods : list (string * string) := [("BTREE", "IndexTypeBTree"); ("HASH", "IndexTypeHash"); ("RTREE", "IndexTypeRTree")].
Inductive index_using_is : tks -> index_option -> Prop :=
| iu_is k c t s t' s' : In (k, c) index_methods -> kw_tok o "USING" t -> kw_tok o k t' -> index_using_is [(t, s); (t', s')] (IOTag (mkTag c s')).
Inductive index_option_is : tks -> index_option -> Prop :=
| ip_using ts x : index_using_is ts x -> index_option_is ts x
| ip_comment t s ts x : kw_tok o "COMMENT" t -> string_is ts x -> index_option_is ((t, s) :: ts) (IOComment x).
Inductive opt_using_is : tks -> list index_option -> Prop :=
| ou_none : opt_using_is [] []
| ou_some ts x : index_using_is ts x -> opt_using_is ts [x].
(** The kind of index.  UNIQUE and SPATIAL indexes, which the AST does not tell from FULLTEXT
    ones, are left out here. *)
Inductive index_kind_is : tks -> tagged -> Prop :=
| kd_primary t s t' s' : kw_tok o "PRIMARY" t -> kw_tok o "KEY" t' -> index_kind_is [(t, s); (t', s')] (mkTag "IndexType::Primary" (join s' s))
| kd_index t s : any_case "INDEX" t \/ any_case "KEY" t -> index_kind_is [(t, s)] (mkTag "IndexType::Index" s)
| kd_fulltext t s t' s' : kw_tok o "FULLTEXT" t -> kw_tok o "INDEX" t' \/ kw_tok o "KEY" t' ->
    index_kind_is [(t, s); (t', s')] (mkTag "IndexType::FullText" (join s' s)).
(** ON UPDATE and ON DELETE.  SET DEFAULT is not accepted, and NO ACTION, which the AST does
    not tell from SET NULL, is left out here. *)
Definition fk_events : list (string * string) := [("UPDATE", "ForeignKeyOnType::Update"); ("DELETE", "ForeignKeyOnType::Delete")].
Definition fk_words : list (string * string) := [("RESTRICT", "ForeignKeyOnAction::Restrict"); ("CASCADE", "ForeignKeyOnAction::Cascade")].
Inductive fk_action_is : tks -> tagged -> Prop :=
| fa_word k c t s : In (k, c) fk_words -> kw_tok o k t -> fk_action_is [(t, s)] (mkTag c s)
| fa_null t s t' s' : kw_tok o "SET" t -> kw_tok o "NULL" t' -> fk_action_is [(t, s); (t', s')] (mkTag "ForeignKeyOnAction::SetNull" (join s' s)).
Inductive fk_on_is : tks -> foreign_key_on -> Prop :=
| fo_is k c t s t' s' ts a : In (k, c) fk_events -> kw_tok o "ON" t -> kw_tok o k t' -> fk_action_is ts a ->
    fk_on_is ((t, s) :: (t', s') :: ts) (mkFKOn (mkTag c (join s' s)) a).
(** IF NOT EXISTS for a column; not for MariaDB. *)
Inductive column_not_exists_is : tks -> option span -> Prop :=
| cn_none : column_not_exists_is [] None
| cn_some t s t1 s1 t2 s2 : o_dialect o <> MariaDB -> kw_tok o "IF" t -> kw_tok o "NOT" t1 -> kw_tok o "EXISTS" t2 ->
    column_not_exists_is [(t, s); (t1, s1); (t2, s2)] (Some (join s2 (join s1 s))).
Inductive column_action_is : tks -> alter_column_action expr -> Prop :=
| ca_set_default t s t' s' ts e : any_case "SET" t -> any_case "DEFAULT" t' -> expr_is o false ts e ->
    column_action_is ((t, s) :: (t', s') :: ts) (ACSetDefault (join s' s) e)
| ca_set_null t s t1 s1 t2 s2 : any_case "SET" t -> kw_tok o "NOT" t1 -> kw_tok o "NULL" t2 ->
    column_action_is [(t, s); (t1, s1); (t2, s2)] (ACTag (mkTag "SetNotNull" (join s (join s2 s1))))
| ca_drop_default t s t' s' : any_case "DROP" t -> any_case "DEFAULT" t' -> column_action_is [(t, s); (t', s')] (ACTag (mkTag "DropDefault" (join s' s)))
| ca_drop_null t s t1 s1 t2 s2 : any_case "DROP" t -> kw_tok o "NOT" t1 -> kw_tok o "NULL" t2 ->
    column_action_is [(t, s); (t1, s1); (t2, s2)] (ACTag (mkTag "DropNotNull" (join s (join s2 s1))))
| ca_type b t s ts d : any_case "TYPE" t -> dtype_is o false b ts d -> column_action_is ((t, s) :: ts) (ACType s d).
(** What is to be changed. *)
Inductive spec_is : tks -> alter_specification expr -> Prop :=
| sp_column b t s t1 s1 is i t2 v s2 ts d : kw_tok o "ADD" t -> kw_tok o "COLUMN" t1 -> column_not_exists_is is i -> name_tok o t2 v -> dtype_is o false b ts d ->
    spec_is ((t, s) :: (t1, s1) :: is ++ (t2, s2) :: ts) (AddColumn s i (mkIdent v s2) d)
| sp_index t s cs c ks k is i ns n us u xs x os ol : kw_tok o "ADD" t -> constraint_is cs c -> index_kind_is ks k -> if_not_exists_is is i -> opt_name_is ns n ->
    opt_using_is us u -> index_cols_are xs x -> many index_option_is os ol ->
    spec_is ((t, s) :: cs ++ ks ++ is ++ ns ++ us ++ xs ++ os) (AddIndex s k i n c x (u ++ ol))
| sp_foreign t s cs c t1 s1 t2 s2 is i ns n xs x t3 s3 t4 v4 s4 rs r fs f : kw_tok o "ADD" t -> constraint_is cs c -> kw_tok o "FOREIGN" t1 -> kw_tok o "KEY" t2 ->
    if_not_exists_is is i -> opt_name_is ns n -> index_cols_are xs x -> kw_tok o "REFERENCES" t3 -> name_tok o t4 v4 -> names_are rs r -> many fk_on_is fs f ->
    spec_is ((t, s) :: cs ++ (t1, s1) :: (t2, s2) :: is ++ ns ++ xs ++ (t3, s3) :: (t4, s4) :: rs ++ fs)
      (AddForeignKey s c (join s2 s1) i n x s3 (mkIdent v4 s4) r f)
| sp_modify b t s cs c is i t2 v s2 ts d : kw_tok o "MODIFY" t -> opt_word "COLUMN" cs c -> if_exists_is is i -> name_tok o t2 v -> dtype_is o false b ts d ->
    spec_is ((t, s) :: cs ++ is ++ (t2, s2) :: ts) (Modify (match c with Some s' => join s s' | None => s end) i (mkIdent v s2) d)
| sp_drop t s t1 s1 t2 v s2 cs c : kw_tok o "DROP" t -> kw_tok o "COLUMN" t1 -> name_tok o t2 v -> opt_word "CASCADE" cs c ->
    spec_is ((t, s) :: (t1, s1) :: (t2, s2) :: cs) (DropColumn (join s1 s) (mkIdent v s2) c)
| sp_alter t s t1 s1 t2 v s2 ts a : kw_tok o "ALTER" t -> kw_tok o "COLUMN" t1 -> name_tok o t2 v -> column_action_is ts a ->
    spec_is ((t, s) :: (t1, s1) :: (t2, s2) :: ts) (AlterColumn (join s1 s) (mkIdent v s2) a)
| sp_owner t s t1 s1 t2 v s2 : kw_tok o "OWNER" t -> kw_tok o "TO" t1 -> name_tok o t2 v ->
    spec_is [(t, s); (t1, s1); (t2, s2)] (OwnerTo (join s1 s) (mkIdent v s2)).
Inductive alter_is : tks -> stmt -> Prop :=
| at_is t s os on gs ig t1 s1 is i ns q ts l : kw_tok o "ALTER" t -> opt_word "ONLINE" os on -> opt_word "IGNORE" gs ig -> kw_tok o "TABLE" t1 ->
    if_exists_is is i -> qname_is o ns q -> commas spec_is ts l ->
    alter_is ((t, s) :: os ++ gs ++ (t1, s1) :: is ++ ns ++ ts) (SAlterTable (mkAlterTable s on ig s1 i q l)).

(** ** Functions and triggers, up to their bodies *)
Inductive way_is : tks -> option tagged -> Prop :=
| dr_none : way_is [] None
| dr_in t s : kw_tok o "IN" t -> way_is [(t, s)] (Some (mkTag "In" s))
| dr_out t s : kw_tok o "OUT" t -> way_is [(t, s)] (Some (mkTag "Out" s))
| dr_inout t s : kw_tok o "INOUT" t -> way_is [(t, s)] (Some (mkTag "InOut" s))
| dr_in_out t s t' s' : kw_tok o "IN" t -> kw_tok o "OUT" t' -> way_is [(t, s); (t', s')] (Some (mkTag "InOut" (join s s'))).
Inductive param_is : tks -> option tagged * ident * data_type expr -> Prop :=
| pm_is b ds d t v s ts ty : way_is ds d -> name_tok o t v -> dtype_is o false b ts ty -> param_is (ds ++ (t, s) :: ts) (d, mkIdent v s, ty).
(** Characteristics; a first [NOT DETERMINISTIC] or COMMENT would be taken for a property of the
    type that is returned. *)
Inductive characteristic_is : tks -> function_characteristic -> Prop :=
| ch_language k c t s t' s' : In (k, c) [("SQL", "LanguageSql"); ("PLPGSQL", "LanguagePlpgsql")] -> any_case "LANGUAGE" t -> any_case k t' ->
    characteristic_is [(t, s); (t', s')] (FCTag (mkTag c (join s s')))
| ch_not t s t' s' : kw_tok o "NOT" t -> kw_tok o "DETERMINISTIC" t' -> characteristic_is [(t, s); (t', s')] (FCTag (mkTag "NotDeterministic" (join s' s)))
| ch_deterministic t s : kw_tok o "DETERMINISTIC" t -> characteristic_is [(t, s)] (FCTag (mkTag "Deterministic" s))
| ch_contains t s t' s' : kw_tok o "CONTAINS" t -> kw_tok o "SQL" t' -> characteristic_is [(t, s); (t', s')] (FCTag (mkTag "ContainsSql" (join s' s)))
| ch_no t s t' s' : kw_tok o "NO" t -> kw_tok o "SQL" t' -> characteristic_is [(t, s); (t', s')] (FCTag (mkTag "NoSql" (join s' s)))
| ch_data k c t s t1 s1 t2 s2 : In (k, c) [("READS", "ReadsSqlData"); ("MODIFIES", "ModifiesSqlData")] -> kw_tok o k t -> kw_tok o "SQL" t1 -> kw_tok o "DATA" t2 ->
    characteristic_is [(t, s); (t1, s1); (t2, s2)] (FCTag (mkTag c (join s2 (join s1 s))))
| ch_comment t s ts x : kw_tok o "COMMENT" t -> string_is ts x -> characteristic_is ((t, s) :: ts) (FCComment x)
| ch_security k c t s t1 s1 t2 s2 : In (k, c) security_words -> kw_tok o "SQL" t -> kw_tok o "SECURITY" t1 -> kw_tok o k t2 ->
    characteristic_is [(t, s); (t1, s1); (t2, s2)] (FCTag (mkTag c (join s2 (join s1 s)))).
(** What may follow the type that is returned: nothing that would be taken for a part of it. *)
Definition after_type (ts : tks) : Prop :=
  is_kw (hd_tok ts) "NOT" = false /\ is_kw (hd_tok ts) "COMMENT" = false /\ is_kw (hd_tok ts) "WITH" = false /\ hd_tok ts <> TLParen.
(** [CREATE FUNCTION name (parameters) RETURNS type]; characteristics and body are still missing. *)
Inductive function_is : tks -> (list function_characteristic -> option stmt -> create_function expr stmt) -> Prop :=
| fn_is hs s l t s1 is i t1 v s2 p1 ps p p2 t2 s3 ts d : create_is hs s l -> kw_tok o "FUNCTION" t -> if_not_exists_is is i -> name_tok o t1 v ->
    commas param_is ps p -> kw_tok o "RETURNS" t2 -> dtype_is o true false ts d ->
    function_is (hs ++ (t, s1) :: is ++ (t1, s2) :: (TLParen, p1) :: ps ++ (TRParen, p2) :: (t2, s3) :: ts)
      (mkCreateFunction s l s1 i (mkIdent v s2) p s3 d).
(** [AS $$ ... $$], the body in PostgreSQL, which is passed over. *)
Inductive dollar_body_is : tks -> Prop :=
| db_none : dollar_body_is []
| db_some t s s1 ts s2 : kw_tok o "AS" t -> Forall (fun x : tok * span => fst x <> TDoubleDollar /\ fst x <> TEof /\ placeholder o (fst x) = false) ts ->
    dollar_body_is ((t, s) :: (TDoubleDollar, s1) :: ts ++ [(TDoubleDollar, s2)]).
Definition trigger_times : list (string * string) := [("AFTER", "After"); ("BEFORE", "Before")].
Definition trigger_events : list (string * string) := [("UPDATE", "Update"); ("INSERT", "Insert"); ("DELETE", "Delete")].
(** [CREATE TRIGGER name time event ON table FOR EACH ROW] *)
Inductive trigger_is : tks -> (stmt -> create_trigger stmt) -> Prop :=
| tg_is hs s l t s1 is i t1 v s2 kt ct t2 s3 ke ce t3 s4 t4 s5 t5 v5 s6 t6 s7 t7 s8 t8 s9 : create_is hs s l -> kw_tok o "TRIGGER" t -> if_not_exists_is is i ->
    name_tok o t1 v -> In (kt, ct) trigger_times -> kw_tok o kt t2 -> In (ke, ce) trigger_events -> kw_tok o ke t3 ->
    kw_tok o "ON" t4 -> name_tok o t5 v5 -> kw_tok o "FOR" t6 -> kw_tok o "EACH" t7 -> kw_tok o "ROW" t8 ->
    trigger_is (hs ++ (t, s1) :: is ++ [(t1, s2); (t2, s3); (t3, s4); (t4, s5); (t5, s6); (t6, s7); (t7, s8); (t8, s9)])
      (mkCreateTrigger s l s1 i (mkIdent v s2) (mkTag ct s3) (mkTag ce s4) s5 (mkIdent v5 s6) (join s9 (join s8 s7))).

(** ** Statements that may be followed by anything a statement may be followed by *)
Inductive define_is : tks -> stmt -> Prop :=
| de_view ts x : create_view_is ts x -> define_is ts x
| de_index ts x : create_index_is ts x -> define_is ts x
| de_type ts x : create_type_is ts x -> define_is ts x.
End Spec.
