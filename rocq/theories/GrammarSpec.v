(** Specification: a grammar, on tokens, of expressions and of SELECT / UNION queries.
    [query_is o ts q] says that the tokens [ts] are a query and that [q] is its AST: every
    clause, list element, branch and operand in its place, with the spans of its tokens.
    Operator chains are described by the grouped trees of [PrecSpec.v].  Nothing here refers to
    the parser; [Grammar.v] proves that the parser reads what the grammar generates. *)
From Verif Require Export View ExprRead FuncSpec.
Local Open Scope string_scope.
Local Open Scope list_scope.

(** One or more phrases separated by commas. *)
Inductive commas {A} (P : tks -> A -> Prop) : tks -> list A -> Prop :=
| cm_one ts a : P ts a -> commas P ts [a]
| cm_more ts a s ts' l : P ts a -> commas P ts' l -> commas P (ts ++ (TComma, s) :: ts') (a :: l).

Section Spec.
(** The options under which the source is read. *)
Variable o : reading.

(** ** Words and names *)
(** Words with a syntax of their own, which are not operands by themselves. *)
Definition special_words : list string :=
  ["OR"; "XOR"; "AND"; "LIKE"; "BINARY"; "COLLATE"; "IN"; "IS"; "NOT"; "INTERVAL"; "TIMESTAMPADD"; "TIMESTAMPDIFF"; "TRUE"; "FALSE"; "NULL"; "_LIST_";
   "CAST"; "COUNT"; "GROUP_CONCAT"; "EXTRACT"; "LEFT"; "SELECT"; "WHEN"; "ALL"; "DISTINCT"; "DISTINCTROW"; "HIGH_PRIORITY"; "STRAIGHT_JOIN";
   "SQL_SMALL_RESULT"; "SQL_BIG_RESULT"; "SQL_BUFFER_RESULT"; "SQL_NO_CACHE"; "SQL_CALC_FOUND_ROWS"].
Definition is_special (k : string) : bool := existsb (String.eqb k) special_words.
(** A keyword that may begin an expression. *)
Definition expr_word (k : string) : bool := kw_expr_ident (KW k) && negb (is_special k).
(** The first word of a name: no keyword, or an unreserved one, or quoted. *)
Definition word_tok (t : tok) (v : text) : Prop :=
  t = TIdent v QUOTED_IDENTIFIER \/
  (o_warn_unquoted o = false /\
   (t = TIdent v NOT_A_KEYWORD \/
    exists k, t = TIdent v (KW k) /\ expr_word k = true /\ kw_reserved (KW k) = false /\ is_listed functions_without_parentheses k = false)).
(** The name of a function: a known function or any other unreserved word. *)
Definition func_tok (t : tok) (f : func) : Prop :=
  exists v k, t = TIdent v k /\
    ((k = NOT_A_KEYWORD \/ k = QUOTED_IDENTIFIER) /\ f = FOther v \/
     exists w, k = KW w /\ expr_word w = true /\
       ((exists g, stands_for functions_by_name w g /\ f = FName g) \/ (is_listed functions_by_name w = false /\ kw_reserved (KW w) = false /\ f = FOther v))).
(** The rest of a dotted name in an expression. *)
Inductive dotted : tks -> list idpart -> Prop :=
| dt_nil : dotted [] []
| dt_name s1 t v s2 ts ps : name_tok o t v -> (forall x, t <> TDoubleQuotedString x) -> dotted ts ps ->
    dotted ((TPeriod, s1) :: (t, s2) :: ts) (PName (mkIdent v s2) :: ps)
| dt_star s1 s2 ts ps : dotted ts ps -> dotted ((TPeriod, s1) :: (TMul, s2) :: ts) (PStar s2 :: ps).
(** A qualified name [a.b.c]. *)
Inductive qname_is : tks -> qname -> Prop :=
| qn_one t v s : name_tok o t v -> qname_is [(t, s)] (mkQName [] (mkIdent v s))
| qn_more t v s d ts p i : name_tok o t v -> qname_is ts (mkQName p i) ->
    qname_is ((t, s) :: (TPeriod, d) :: ts) (mkQName ((mkIdent v s, d) :: p) i).
(** An optional alias. *)
Inductive alias_is : tks -> option span -> option ident -> Prop :=
| al_none : alias_is [] None None
| al_bare t v s : name_tok o t v -> is_unreserved t = true -> alias_is [(t, s)] None (Some (mkIdent v s))
| al_as t1 s1 t2 v s2 : kw_tok o "AS" t1 -> name_tok o t2 v -> alias_is [(t1, s1); (t2, s2)] (Some s1) (Some (mkIdent v s2)).

(** IS and IS NOT. *)
Definition is_form (k : is_) : bool * string :=
  match k with
  | IsTrue => (false, "TRUE") | IsFalse => (false, "FALSE") | IsNull => (false, "NULL") | IsUnknown => (false, "UNKNOWN")
  | IsNotTrue => (true, "TRUE") | IsNotFalse => (true, "FALSE") | IsNotNull => (true, "NULL") | IsNotUnknown => (true, "UNKNOWN")
  end.

(** ** Small phrases *)
(** A word that may be missing. *)
Inductive opt_word (k : string) : tks -> option span -> Prop :=
| ow_none : opt_word k [] None
| ow_some t s : kw_tok o k t -> opt_word k [(t, s)] (Some s).
(** A word whose spelling is not checked by the capitalisation lint. *)
Definition any_case (k : string) (t : tok) : Prop := exists v, t = TIdent v (KW k).
(** A name. *)
Inductive ident_is : tks -> ident -> Prop :=
| id_name t v s : name_tok o t v -> ident_is [(t, s)] (mkIdent v s).
(** A string: adjacent literals are joined. *)
Inductive literal : tok -> text -> Prop :=
| lt_single v : literal (TSingleQuotedString v) (decode_single_quoted_string v)
| lt_double v : literal (TDoubleQuotedString v) (decode_double_quoted_string v).
Inductive more_strings : text -> span -> tks -> sstring -> Prop :=
| ms_end v s : more_strings v s [] (mkSString v s)
| ms_more v s t w s' ts x : literal t w -> more_strings (v ++ w) (join s s') ts x -> more_strings v s ((t, s') :: ts) x.
Inductive string_is : tks -> sstring -> Prop :=
| sg_string t v s ts x : literal t v -> more_strings v s ts x -> string_is ((t, s) :: ts) x.
(** A unit of time. *)
Definition unit_tok (t : tok) (u : time_unit) : Prop := exists k, stands_for units_by_name k u /\ any_case k t.
(** The numbers in the string of an interval such as '1:30'. *)
Definition number_text (t : text) (n : N) : Prop :=
  exists ds, (t = ds \/ t = 43%N :: ds) /\ ds <> [] /\ forallb is_digit ds = true /\ n = digits_value ds /\ (n < 2 ^ 63)%N.
Inductive numbers_text : text -> list N -> Prop :=
| nt_one t n : number_text t n -> numbers_text t [n]
| nt_more t n c r l : number_text t n -> In c [58; 33; 44; 46; 45; 32]%N -> numbers_text r l -> numbers_text (t ++ c :: r) (n :: l).
Inductive interval_is : tks -> list N * span -> Prop :=
| iv_int v s : (digits_value v < 2 ^ 63)%N -> interval_is [(TInteger v, s)] ([digits_value v], s)
| iv_string ts x l : string_is ts x -> numbers_text (ss_value x) l -> interval_is ts (l, ss_span x).
(** A system variable. *)
Definition variable_tok (t : tok) (x : variable) : Prop :=
  exists v k, t = TIdent v k /\ (k = KW "TIME_ZONE" /\ x = VTimeZone \/ k <> KW "TIME_ZONE" /\ x = VOther v).

(** ** Types *)
(** Types without and with an optional width. *)
Definition simple_types : list (string * string) := [
  ("BOOLEAN", "Boolean"); ("INET4", "Inet4"); ("INET6", "Inet6"); ("FLOAT8", "Float8");
  ("TIMESTAMPTZ", "Timestamptz"); ("DATE", "Date"); ("JSON", "Json"); ("BYTEA", "Bytea") ].
Definition sized_types : list (string * string) := [
  ("TINYINT", "TinyInt"); ("SMALLINT", "SmallInt"); ("INTEGER", "Integer"); ("INT", "Int");
  ("BIGINT", "BigInt"); ("TINYTEXT", "TinyText"); ("CHAR", "Char"); ("TEXT", "Text");
  ("MEDIUMTEXT", "MediumText"); ("LONGTEXT", "LongText"); ("VARCHAR", "VarChar");
  ("TINYBLOB", "TinyBlob"); ("BLOB", "Blob"); ("MEDIUMBLOB", "MediumBlob");
  ("LONGBLOB", "LongBlob"); ("BINARY", "Binary"); ("DATETIME", "DateTime"); ("TIME", "Time") ].
(** Other words with a meaning as a type. *)
Definition type_words : list string :=
  map fst simple_types ++ map fst sized_types ++ ["VARBINARY"; "REAL"; "FLOAT"; "DOUBLE"; "NUMERIC"; "TIMESTAMP"; "ENUM"; "SET"; "BIT"].
Inductive width_is : tks -> N * span -> Prop :=
| wi_is s1 v s s2 : (digits_value v <= usize_max)%N -> width_is [(TLParen, s1); (TInteger v, s); (TRParen, s2)] (digits_value v, s).
Inductive opt_width : tks -> option (N * span) -> Prop :=
| owi_none : opt_width [] None
| owi_some ts w : width_is ts w -> opt_width ts (Some w).
Inductive zone_is : tks -> option span -> Prop :=
| zo_none : zone_is [] None
| zo_some t1 s1 t2 s2 t3 s3 : kw_tok o "WITH" t1 -> kw_tok o "TIME" t2 -> kw_tok o "ZONE" t3 ->
    zone_is [(t1, s1); (t2, s2); (t3, s3)] (Some (join s1 (join s3 s2))).
(** The type proper: its tokens, the span of its name, its meaning. *)
Inductive basic_is : tks -> span -> type_ -> Prop :=
| ba_simple k c t s : In (k, c) simple_types -> kw_tok o k t -> basic_is [(t, s)] s (TyPlain c)
| ba_sized k c t s ts w : In (k, c) sized_types -> kw_tok o k t -> opt_width ts w -> basic_is ((t, s) :: ts) s (TyWidth c w)
| ba_varbinary t s ts w : kw_tok o "VARBINARY" t -> width_is ts w -> basic_is ((t, s) :: ts) s (TyVarBinary w)
| ba_real t s : kw_tok o "REAL" t -> basic_is [(t, s)] s (TyFloat (match o_dialect o with Sqlite => "Double" | _ => "Float" end))
| ba_float t s : kw_tok o "FLOAT" t -> basic_is [(t, s)] s (TyFloat "Float")
| ba_double t s : kw_tok o "DOUBLE" t -> o_dialect o <> PostgreSQL -> basic_is [(t, s)] s (TyFloat "Double")
| ba_precision t s t' s' : kw_tok o "DOUBLE" t -> kw_tok o "PRECISION" t' -> o_dialect o = PostgreSQL ->
    basic_is [(t, s); (t', s')] (join s' s) (TyFloat "Double")
| ba_numeric t s s1 v1 i1 s2 v2 i2 s3 : kw_tok o "NUMERIC" t -> (digits_value v1 <= usize_max)%N -> (digits_value v2 <= usize_max)%N ->
    basic_is [(t, s); (TLParen, s1); (TInteger v1, i1); (TComma, s2); (TInteger v2, i2); (TRParen, s3)] s
      (TyNumeric (digits_value v1) (digits_value v2) (join (join (join (join s1 i1) s2) i2) s3))
| ba_timestamp t s ts w zs z : kw_tok o "TIMESTAMP" t -> opt_width ts w -> zone_is zs z ->
    basic_is ((t, s) :: ts ++ zs) s (TyTimestamp (mkTimestamp w z))
| ba_enum t s s1 ts s2 l : kw_tok o "ENUM" t -> commas string_is ts l -> basic_is ((t, s) :: (TLParen, s1) :: ts ++ [(TRParen, s2)]) s (TyEnum l)
| ba_set t s s1 ts s2 l : kw_tok o "SET" t -> commas string_is ts l -> basic_is ((t, s) :: (TLParen, s1) :: ts ++ [(TRParen, s2)]) s (TySet l)
| ba_bit t s ts w ws : kw_tok o "BIT" t -> width_is ts (w, ws) -> basic_is ((t, s) :: ts) s (TyBit w ws)
| ba_named v k s : o_dialect o = PostgreSQL -> (forall w, k = KW w -> ~ In w type_words) -> basic_is [(TIdent v k, s)] s (TyNamed s).
(** Properties of one word. *)
Definition word_properties : list (string * string) := [
  ("SIGNED", "Signed"); ("AUTO_INCREMENT", "AutoIncrement"); ("UNSIGNED", "Unsigned");
  ("ZEROFILL", "Zerofill"); ("NULL", "Null"); ("VIRTUAL", "Virtual");
  ("PERSISTENT", "Persistent"); ("STORED", "Stored") ].
(** What may follow [DEFAULT expression]: the other words (NULL, AUTO_INCREMENT, ...) would be
    taken for a part of the expression. *)
Definition after_default : list string :=
  ["NOT"; "COLLATE"; "CHARACTER"; "COMMENT"; "DEFAULT"; "UNIQUE"; "AS"; "PRIMARY"; "CHECK"; "UNSIGNED"; "ZEROFILL"].

(** ** Joins *)
(** [LEFT OUTER JOIN] and so on; the flag: it begins with RIGHT. *)
Inductive join_is : bool -> tks -> tagged -> Prop :=
| jn_inner a sa b sb : kw_tok o "INNER" a -> kw_tok o "JOIN" b -> join_is false [(a, sa); (b, sb)] (mkTag "JoinType::Inner" (join sa sb))
| jn_cross a sa b sb : kw_tok o "CROSS" a -> kw_tok o "JOIN" b -> join_is false [(a, sa); (b, sb)] (mkTag "JoinType::Cross" (join sa sb))
| jn_join a sa : kw_tok o "JOIN" a -> join_is false [(a, sa)] (mkTag "JoinType::Normal" sa)
| jn_straight a sa : kw_tok o "STRAIGHT_JOIN" a -> join_is false [(a, sa)] (mkTag "JoinType::Straight" sa)
| jn_left a sa b sb : kw_tok o "LEFT" a -> kw_tok o "JOIN" b -> join_is false [(a, sa); (b, sb)] (mkTag "JoinType::Left" (join sa sb))
| jn_left_outer a sa b sb c sc : kw_tok o "LEFT" a -> kw_tok o "OUTER" b -> kw_tok o "JOIN" c ->
    join_is false [(a, sa); (b, sb); (c, sc)] (mkTag "JoinType::Left" (join (join sa sb) sc))
| jn_right a sa b sb : kw_tok o "RIGHT" a -> kw_tok o "JOIN" b -> join_is true [(a, sa); (b, sb)] (mkTag "JoinType::Right" (join sa sb))
| jn_right_outer a sa b sb c sc : kw_tok o "RIGHT" a -> kw_tok o "OUTER" b -> kw_tok o "JOIN" c ->
    join_is true [(a, sa); (b, sb); (c, sc)] (mkTag "JoinType::Right" (join (join sa sb) sc))
| jn_natural a sa b sb : kw_tok o "NATURAL" a -> kw_tok o "JOIN" b -> join_is false [(a, sa); (b, sb)] (mkTag "JoinType::Natural" (join sa sb))
| jn_natural_inner a sa b sb c sc : kw_tok o "NATURAL" a -> kw_tok o "INNER" b -> kw_tok o "JOIN" c ->
    join_is false [(a, sa); (b, sb); (c, sc)] (mkTag "JoinType::NaturalInner" (join sa (join sc sb)))
(** The span of these does not include NATURAL. *)
| jn_natural_outer w n a sa b sb os x c sc : In (w, n) [("LEFT", "JoinType::NaturalLeft"); ("RIGHT", "JoinType::NaturalRight")] ->
    kw_tok o "NATURAL" a -> kw_tok o w b -> opt_word "OUTER" os x -> kw_tok o "JOIN" c ->
    join_is false ((a, sa) :: (b, sb) :: os ++ [(c, sc)]) (mkTag n (join (match x with Some s => join sb s | None => sb end) sc)).
(** Index hints. *)
Definition hint_words : list (string * string) := [("USE", "Use"); ("IGNORE", "Ignore"); ("FORCE", "Force")].
Inductive hint_for_is : tks -> option (span * tagged) -> Prop :=
| hf_none : hint_for_is [] None
| hf_join t s t' s' : kw_tok o "FOR" t -> any_case "JOIN" t' -> hint_for_is [(t, s); (t', s')] (Some (s, mkTag "Join" s'))
| hf_by k c t s t' s' t2 s2 : In (k, c) [("GROUP", "GroupBy"); ("ORDER", "OrderBy")] -> kw_tok o "FOR" t -> kw_tok o k t' -> kw_tok o "BY" t2 ->
    hint_for_is [(t, s); (t', s'); (t2, s2)] (Some (s, mkTag c (join s2 s'))).
Inductive hint_is : tks -> index_hint -> Prop :=
| hi_is k c t s k' c' t' s' fs f s1 ts l s2 : In (k, c) hint_words -> any_case k t -> In (k', c') [("INDEX", "Index"); ("KEY", "Key")] -> any_case k' t' ->
    hint_for_is fs f -> commas ident_is ts l ->
    hint_is ((t, s) :: (t', s') :: fs ++ (TLParen, s1) :: ts ++ [(TRParen, s2)]) (mkIndexHint (mkTag c s) (mkTag c' s') f s1 l s2).
Inductive hints_are : tks -> list index_hint -> Prop :=
| hs_nil : hints_are [] []
| hs_cons ts h ts' l : o_dialect o = MariaDB -> hint_is ts h -> hints_are ts' l -> hints_are (ts ++ ts') (h :: l).
(** FOR UPDATE and so on. *)
Inductive strength_is : tks -> tagged -> Prop :=
| sh_update t s : kw_tok o "UPDATE" t -> strength_is [(t, s)] (mkTag "Update" s)
| sh_share t s : kw_tok o "SHARE" t -> strength_is [(t, s)] (mkTag "Share" s)
| sh_no_key t s t' s' t2 s2 : o_dialect o = PostgreSQL -> kw_tok o "NO" t -> kw_tok o "KEY" t' -> kw_tok o "UPDATE" t2 ->
    strength_is [(t, s); (t', s'); (t2, s2)] (mkTag "NoKeyUpdate" (join s2 (join s' s)))
| sh_key t s t' s' : o_dialect o = PostgreSQL -> kw_tok o "KEY" t -> kw_tok o "SHARE" t' ->
    strength_is [(t, s); (t', s')] (mkTag "KeyShare" (join s' s)).
Inductive of_is : tks -> option (span * list ident) -> Prop :=
| of_none : of_is [] None
| of_some t s ts l : kw_tok o "OF" t -> commas ident_is ts l -> of_is ((t, s) :: ts) (Some (s, l)).
Inductive wait_is : tks -> lock_wait -> Prop :=
| wt_default : wait_is [] LWDefault
| wt_nowait t s : kw_tok o "NOWAIT" t -> wait_is [(t, s)] (LWNoWait s)
| wt_skip t s t' s' : kw_tok o "SKIP" t -> kw_tok o "LOCKED" t' -> wait_is [(t, s); (t', s')] (LWSkipLocked (join s' s)).
Inductive locking_is : tks -> option locking -> Prop :=
| lk_none : locking_is [] None
| lk_some t s ss g os f ws w : kw_tok o "FOR" t -> strength_is ss g -> of_is os f -> wait_is ws w ->
    locking_is ((t, s) :: ss ++ os ++ ws) (Some (mkLocking s g f w)).

(** The words between SELECT and the first expression. *)
Inductive flags_are : tks -> list tagged -> Prop :=
| fl_nil : flags_are [] []
| fl_cons k c t s ts l : In (k, c) select_flags -> kw_tok o k t -> flags_are ts l -> flags_are ((t, s) :: ts) (mkTag c s :: l).

(** ASC, DESC or nothing. *)
Inductive direction_is : tks -> order_flag -> Prop :=
| di_none : direction_is [] ONone
| di_asc v s : direction_is [(TIdent v (KW "ASC"), s)] (OAsc s)
| di_desc v s : direction_is [(TIdent v (KW "DESC"), s)] (ODesc s).
Inductive union_type_is : tks -> union_type -> Prop :=
| ut_default : union_type_is [] UTDefault
| ut_all t s : kw_tok o "ALL" t -> union_type_is [(t, s)] (UTAll s)
| ut_distinct t s : kw_tok o "DISTINCT" t -> union_type_is [(t, s)] (UTDistinct s).

(** How the condition of a join ends: there is none, with the expression after ON, with the
    list of names after USING (which is not in parentheses). *)
Inductive join_end := EndTable | EndOn | EndUsing.
(** How a query may be followed: after parentheses by anything, after a SELECT with FROM not by
    another clause (which would belong to it). *)
Inductive ending := Closed | NoFrom | WithFrom.
Definition hd_tok (ts : tks) : tok := match ts with x :: _ => fst x | [] => TEof end.

(** ** Expressions and queries *)
Inductive operand_is : tks -> expr -> Prop :=
| od_integer v s : (digits_value v <= u64_max)%N -> operand_is [(TInteger v, s)] (EInteger (digits_value v, s))
| od_float v s : operand_is [(TFloat v, s)] (EFloat (v, s))
| od_string ts x : string_is ts x -> operand_is ts (EString x)
| od_null t s : kw_tok o "NULL" t -> operand_is [(t, s)] (ENull s)
| od_true t s : kw_tok o "TRUE" t -> operand_is [(t, s)] (EBool true s)
| od_false t s : kw_tok o "FALSE" t -> operand_is [(t, s)] (EBool false s)
| od_name t v s ts ps : word_tok t v -> dotted ts ps ->
    operand_is ((t, s) :: ts) (EIdentifier (mkParts (PName (mkIdent v s) :: ps)))
| od_star s : operand_is [(TMul, s)] (EIdentifier (mkParts [PStar s]))
| od_paren s1 ts s2 e : expr_is false ts e -> operand_is ((TLParen, s1) :: ts ++ [(TRParen, s2)]) e
| od_arg n s : o_arguments o = ArgDollar -> (0 < n)%N -> operand_is [(TDollarArg n, s)] (EArg (mkArg (n - 1)%N s))
| od_placeholder t s : placeholder o t = true -> operand_is [(t, s)] (EArg (mkArg (rd_number o s) s))
| od_bare k f t s : stands_for functions_without_parentheses k f -> any_case k t -> operand_is [(t, s)] (EFunction (FName f) [] s)
| od_call t f s s1 ts s2 l : func_tok t f -> args_are ts l ->
    operand_is ((t, s) :: (TLParen, s1) :: ts ++ [(TRParen, s2)]) (EFunction f l s)
| od_over t f s s1 ts s2 l t' so s3 t1 b1 t2 b2 os ol s4 : func_tok t f -> args_are ts l -> kw_tok o "OVER" t' ->
    kw_tok o "ORDER" t1 -> kw_tok o "BY" t2 -> sorted_are os ol ->
    operand_is ((t, s) :: (TLParen, s1) :: ts ++ (TRParen, s2) :: (t', so) :: (TLParen, s3) :: (t1, b1) :: (t2, b2) :: os ++ [(TRParen, s4)])
      (EWindowFunction f l s so (join b2 b1, ol))
| od_left t s s1 ts s2 l : any_case "LEFT" t -> args_are ts l ->
    operand_is ((t, s) :: (TLParen, s1) :: ts ++ [(TRParen, s2)]) (EFunction (FName "Left") l s)
| od_aggregate k K t s s1 ds d ts e s2 : In (k, K) [("COUNT", ECount); ("GROUP_CONCAT", EGroupConcat)] -> kw_tok o k t -> opt_word "DISTINCT" ds d ->
    expr_is false ts e -> operand_is ((t, s) :: (TLParen, s1) :: ds ++ ts ++ [(TRParen, s2)]) (K s d e)
| od_cast b t s s1 ts e t' s' ds d s2 : kw_tok o "CAST" t -> expr_is false ts e -> kw_tok o "AS" t' -> dtype_is false b ds d ->
    operand_is ((t, s) :: (TLParen, s1) :: ts ++ (t', s') :: ds ++ [(TRParen, s2)]) (ECast s e s' d)
| od_extract t s s1 t1 u su t2 s2 ts e s3 : kw_tok o "EXTRACT" t -> unit_tok t1 u -> kw_tok o "FROM" t2 -> expr_is false ts e ->
    operand_is ((t, s) :: (TLParen, s1) :: (t1, su) :: (t2, s2) :: ts ++ [(TRParen, s3)]) (EExtract s (u, su) s2 e)
| od_timestamp k K t s s1 t1 u su s2 ts e s3 ts' e' s4 : In (k, K) [("TIMESTAMPADD", ETimestampAdd); ("TIMESTAMPDIFF", ETimestampDiff)] ->
    any_case k t -> unit_tok t1 u -> expr_is false ts e -> expr_is false ts' e' ->
    operand_is ((t, s) :: (TLParen, s1) :: (t1, su) :: (TComma, s2) :: ts ++ (TComma, s3) :: ts' ++ [(TRParen, s4)]) (K s (u, su) e e')
| od_interval t s ts i t' u su : any_case "INTERVAL" t -> interval_is ts i -> unit_tok t' u ->
    operand_is ((t, s) :: ts ++ [(t', su)]) (EInterval s i (u, su))
| od_global s d t v sv : variable_tok t v -> operand_is [(TAtAtGlobal, s); (TPeriod, d); (t, sv)] (EVariable (Some s) None (Some d) v sv)
| od_session s d t v sv : variable_tok t v -> operand_is [(TAtAtSession, s); (TPeriod, d); (t, sv)] (EVariable None (Some s) (Some d) v sv)
| od_subquery s1 ts s2 q : query_is ts q -> is_kw (hd_tok ts) "SELECT" = true ->
    operand_is ((TLParen, s1) :: ts ++ [(TRParen, s2)]) (ESubquery q)
| od_exists t s s1 ts s2 q : kw_tok o "EXISTS" t -> query_is ts q ->
    operand_is ((t, s) :: (TLParen, s1) :: ts ++ [(TRParen, s2)]) (EExists q)
| od_case t s ts v ws l es e t' s' : kw_tok o "CASE" t -> value_is ts v -> whens_are ws l -> else_is es e -> kw_tok o "END" t' ->
    operand_is ((t, s) :: ts ++ ws ++ es ++ [(t', s')]) (ECase s v l e s')
(** The arguments of a function. *)
with args_are : tks -> list expr -> Prop :=
| ag_none : args_are [] []
| ag_some ts l : list_is false ts l -> args_are ts l
(** A type with its properties; the flags: AS is not a property here, and the type ends with the
    expression after DEFAULT. *)
with dtype_is : bool -> bool -> tks -> data_type expr -> Prop :=
| dy_is no_as b ts s ty ps l : basic_is ts s ty -> props_are no_as b ps l -> dtype_is no_as b (ts ++ ps) (mkDataType s ty l)
with props_are : bool -> bool -> tks -> list (dt_property expr) -> Prop :=
| pp_nil no_as : props_are no_as false [] []
| pp_last no_as b ts p : prop_is no_as b ts p -> props_are no_as b ts [p]
| pp_more no_as b ts p b' ts' l : prop_is no_as b ts p -> props_are no_as b' ts' l -> l <> [] ->
    (b = true -> existsb (is_kw (hd_tok ts')) after_default = true) -> props_are no_as b' (ts ++ ts') (p :: l)
with prop_is : bool -> bool -> tks -> dt_property expr -> Prop :=
| pr_word no_as k c t s : In (k, c) word_properties -> kw_tok o k t -> prop_is no_as false [(t, s)] (DPTag (mkTag c s))
| pr_not_null no_as t s t' s' : kw_tok o "NOT" t -> kw_tok o "NULL" t' ->
    prop_is no_as false [(t, s); (t', s')] (DPTag (mkTag "NotNull" (sp_start s, sp_end s')))
| pr_charset no_as t s t' s' t2 v s2 : kw_tok o "CHARACTER" t -> kw_tok o "SET" t' -> name_tok o t2 v ->
    prop_is no_as false [(t, s); (t', s'); (t2, s2)] (DPCharset (mkIdent v s2))
| pr_collate no_as t s t2 v s2 : kw_tok o "COLLATE" t -> name_tok o t2 v -> prop_is no_as false [(t, s); (t2, s2)] (DPCharset (mkIdent v s2))
| pr_comment no_as t s ts x : kw_tok o "COMMENT" t -> string_is ts x -> prop_is no_as false ((t, s) :: ts) (DPComment x)
| pr_default no_as t s ts e : kw_tok o "DEFAULT" t -> expr_is true ts e -> prop_is no_as true ((t, s) :: ts) (DPDefault e)
| pr_unique no_as t s : kw_tok o "UNIQUE" t -> prop_is no_as false [(t, s)] (DPTag (mkTag "Unique" s))
| pr_unique_key no_as t s t' s' : kw_tok o "UNIQUE" t -> kw_tok o "KEY" t' -> prop_is no_as false [(t, s); (t', s')] (DPTag (mkTag "UniqueKey" (join s' s)))
| pr_generated no_as t s t' s' : o_dialect o <> PostgreSQL -> kw_tok o "GENERATED" t -> kw_tok o "ALWAYS" t' ->
    prop_is no_as false [(t, s); (t', s')] (DPTag (mkTag "GeneratedAlways" (join s' s)))
| pr_identity no_as t s t' s' t2 s2 t3 s3 : o_dialect o = PostgreSQL -> kw_tok o "GENERATED" t -> kw_tok o "ALWAYS" t' -> kw_tok o "AS" t2 -> kw_tok o "IDENTITY" t3 ->
    prop_is no_as false [(t, s); (t', s'); (t2, s2); (t3, s3)] (DPTag (mkTag "GeneratedAlways" (join s3 (join s2 (join s' s)))))
| pr_as t s s1 ts s2 e : kw_tok o "AS" t -> expr_is false ts e -> prop_is false false ((t, s) :: (TLParen, s1) :: ts ++ [(TRParen, s2)]) (DPAs s e)
| pr_primary no_as t s t' s' : kw_tok o "PRIMARY" t -> kw_tok o "KEY" t' -> prop_is no_as false [(t, s); (t', s')] (DPTag (mkTag "PrimaryKey" (join s' s)))
| pr_check no_as t s s1 ts s2 e : kw_tok o "CHECK" t -> expr_is false ts e ->
    prop_is no_as false ((t, s) :: (TLParen, s1) :: ts ++ [(TRParen, s2)]) (DPCheck s e)
with value_is : tks -> option expr -> Prop :=
| va_none : value_is [] None
| va_some ts e : expr_is false ts e -> value_is ts (Some e)
with whens_are : tks -> list (when expr) -> Prop :=
| wh_one t s ts e t' s' ts' e' : kw_tok o "WHEN" t -> expr_is false ts e -> kw_tok o "THEN" t' -> expr_is false ts' e' ->
    whens_are ((t, s) :: ts ++ (t', s') :: ts') [mkWhen s e s' e']
| wh_more t s ts e t' s' ts' e' us l : kw_tok o "WHEN" t -> expr_is false ts e -> kw_tok o "THEN" t' -> expr_is false ts' e' ->
    whens_are us l -> whens_are ((t, s) :: ts ++ (t', s') :: ts' ++ us) (mkWhen s e s' e' :: l)
with else_is : tks -> option (span * expr) -> Prop :=
| el_none : else_is [] None
| el_some t s ts e : kw_tok o "ELSE" t -> expr_is false ts e -> else_is ((t, s) :: ts) (Some (s, e))
(** Chains of items; the flags: a restricted ("inner") expression, and an operand has just been read. *)
with items_are : bool -> bool -> tks -> list item -> Prop :=
| it_end inner : items_are inner true [] []
| it_operand inner ts e ts' l : operand_is ts e -> items_are inner true ts' l -> items_are inner false (ts ++ ts') (IExp e :: l)
| it_prefix inner t s op ts l : operator_of false t = Some (OpUn op) -> allowed inner (OpUn op) = true ->
    items_are inner false ts l -> items_are inner false ((t, s) :: ts) (IUn op s :: l)
| it_binary inner t s op ts l : operator_of true t = Some (OpBin op) -> allowed inner (OpBin op) = true ->
    items_are inner false ts l -> items_are inner true ((t, s) :: ts) (IBin op s :: l)
| it_is t1 s1 t2 s2 k ts l : kw_tok o "IS" t1 -> kw_tok o (snd (is_form k)) t2 -> fst (is_form k) = false ->
    items_are false true ts l -> items_are false true ((t1, s1) :: (t2, s2) :: ts) (IPost (PIs k (join s2 s1)) :: l)
| it_is_not t1 s1 t2 s2 t3 s3 k ts l : kw_tok o "IS" t1 -> kw_tok o "NOT" t2 -> kw_tok o (snd (is_form k)) t3 -> fst (is_form k) = true ->
    items_are false true ts l -> items_are false true ((t1, s1) :: (t2, s2) :: (t3, s3) :: ts) (IPost (PIs k (join s3 s1)) :: l)
| it_in t1 s1 s2 ts s3 rhs ts' l : kw_tok o "IN" t1 -> list_is true ts rhs -> items_are false true ts' l ->
    items_are false true ((t1, s1) :: (TLParen, s2) :: ts ++ (TRParen, s3) :: ts') (IPost (PIn rhs s1 false) :: l)
| it_not_in t0 s0 t1 s1 s2 ts s3 rhs ts' l : kw_tok o "NOT" t0 -> kw_tok o "IN" t1 -> list_is true ts rhs -> items_are false true ts' l ->
    items_are false true ((t0, s0) :: (t1, s1) :: (TLParen, s2) :: ts ++ (TRParen, s3) :: ts') (IPost (PIn rhs (join s1 s0) true) :: l)
| it_not_like t0 s0 t1 s1 ts l : kw_tok o "NOT" t0 -> kw_tok o "LIKE" t1 -> items_are false false ts l ->
    items_are false true ((t0, s0) :: (t1, s1) :: ts) (IBin NotLike (join s1 s0) :: l)
with expr_is : bool -> tks -> expr -> Prop :=
| ex_tree inner ts t : items_are inner false ts (frontier t) -> grouped t -> expr_is inner ts (to_expr t)
(** Lists separated by commas; after IN ([true]) the list may be a query. *)
with list_is : bool -> tks -> list expr -> Prop :=
| li_query ts q : query_is ts q -> is_kw (hd_tok ts) "SELECT" = true -> list_is true ts [ESubquery q]
| li_one b ts e : expr_is false ts e -> list_is b ts [e]
| li_more b ts e s ts' l : expr_is false ts e -> list_is b ts' l -> list_is b (ts ++ (TComma, s) :: ts') (e :: l)
(** What is selected. *)
with selected_is : tks -> select_expr expr -> Prop :=
| se_plain ts e : expr_is false ts e -> selected_is ts (mkSelectExpr e None)
| se_as' ts e t1 s1 t2 v s2 : expr_is false ts e -> kw_tok o "AS" t1 -> name_tok o t2 v ->
    selected_is (ts ++ [(t1, s1); (t2, s2)]) (mkSelectExpr e (Some (mkIdent v s2)))
with selection_is : tks -> list (select_expr expr) -> Prop :=
| sn_one ts e : selected_is ts e -> selection_is ts [e]
| sn_more ts e s ts' l : selected_is ts e -> selection_is ts' l -> selection_is (ts ++ (TComma, s) :: ts') (e :: l)
(** Tables. *)
with table_is : tks -> tref expr stmt -> Prop :=
| ta_name ts q us a b hs h : qname_is ts q -> (exists v k, hd_tok ts = TIdent v k) -> alias_is us a b -> hints_are hs h -> table_is (ts ++ us ++ hs) (TRTable q a b h)
| ta_query ts q us a i : bottom_is Closed ts q -> alias_is us a (Some i) -> table_is (ts ++ us) (TRQuery q a (Some i))
with on_is : join_end -> tks -> option (join_spec expr) -> Prop :=
| on_none : on_is EndTable [] None
| on_some t s ts e : kw_tok o "ON" t -> expr_is false ts e -> on_is EndOn ((t, s) :: ts) (Some (JOn e s))
| on_using t s ts l : kw_tok o "USING" t -> commas ident_is ts l -> on_is EndUsing ((t, s) :: ts) (Some (JUsing l s))
(** After the expression of an ON, RIGHT would be a function; after the names of a USING, a comma
    would continue them. *)
with tables_are : join_end -> tks -> tref expr stmt -> Prop :=
| tj_one ts t : table_is ts t -> tables_are EndTable ts t
| tj_join b ts l r js j ts' t b' us c : tables_are b ts l -> join_is r js j -> (b = EndOn -> r = false) -> table_is ts' t -> on_is b' us c ->
    tables_are b' (ts ++ js ++ ts' ++ us) (TRJoin j l t c)
with from_is : tks -> list (tref expr stmt) -> Prop :=
| fr_one b ts t : tables_are b ts t -> from_is ts [t]
| fr_more b ts t s ts' l : tables_are b ts t -> b <> EndUsing -> from_is ts' l -> from_is (ts ++ (TComma, s) :: ts') (t :: l)
(** The clauses. *)
with cond_is : string -> tks -> option (expr * span) -> Prop :=
| cd_none k : cond_is k [] None
| cd_some k t s ts e : kw_tok o k t -> expr_is false ts e -> cond_is k ((t, s) :: ts) (Some (e, s))
with exprs_are : tks -> list expr -> Prop :=
| es_one ts e : expr_is false ts e -> exprs_are ts [e]
| es_more ts e s ts' l : expr_is false ts e -> exprs_are ts' l -> exprs_are (ts ++ (TComma, s) :: ts') (e :: l)
with group_is : tks -> option (span * list expr) -> Prop :=
| gr_none : group_is [] None
| gr_some t s t' s' ts l : kw_tok o "GROUP" t -> kw_tok o "BY" t' -> exprs_are ts l -> group_is ((t, s) :: (t', s') :: ts) (Some (join s' s, l))
with sorted_are : tks -> list (expr * order_flag) -> Prop :=
| so_one ts e us d : expr_is false ts e -> direction_is us d -> sorted_are (ts ++ us) [(e, d)]
| so_more ts e us d s ts' l : expr_is false ts e -> direction_is us d -> sorted_are ts' l -> sorted_are (ts ++ us ++ (TComma, s) :: ts') ((e, d) :: l)
with order_is : tks -> option (order_list expr) -> Prop :=
| or_none : order_is [] None
| or_some t s t' s' ts l : kw_tok o "ORDER" t -> kw_tok o "BY" t' -> sorted_are ts l -> order_is ((t, s) :: (t', s') :: ts) (Some (join s' s, l))
(** LIMIT count, LIMIT offset, count and LIMIT count OFFSET offset: (span, offset, count). *)
with limit_is : tks -> option (limit expr) -> Prop :=
| lm_none : limit_is [] None
| lm_count t s ts count : kw_tok o "LIMIT" t -> expr_is true ts count -> limit_is ((t, s) :: ts) (Some (s, None, count))
| lm_comma t s ts offset s' ts' count : kw_tok o "LIMIT" t -> expr_is true ts offset -> expr_is true ts' count ->
    limit_is ((t, s) :: ts ++ (TComma, s') :: ts') (Some (s, Some offset, count))
| lm_offset t s ts count v s' ts' offset : kw_tok o "LIMIT" t -> expr_is true ts count -> expr_is true ts' offset ->
    limit_is ((t, s) :: ts ++ (TIdent v (KW "OFFSET"), s') :: ts') (Some (s, Some offset, count))
with select_is : ending -> tks -> select expr stmt -> Prop :=
| sl_no_from t s fs fl ts l : kw_tok o "SELECT" t -> flags_are fs fl -> selection_is ts l ->
    select_is NoFrom ((t, s) :: fs ++ ts) (mkSelect s fl l None None None None None None None None None)
| sl_with_from t s fs fl ts l t' s' fr trs wh w gr g hv h wi win ob or_ ls lm ks lk :
    kw_tok o "SELECT" t -> flags_are fs fl -> selection_is ts l -> kw_tok o "FROM" t' -> from_is fr trs ->
    cond_is "WHERE" wh w -> group_is gr g -> cond_is "HAVING" hv h -> opt_word "WINDOW" wi win ->
    order_is ob or_ -> limit_is ls lm -> locking_is ks lk ->
    select_is WithFrom ((t, s) :: fs ++ ts ++ (t', s') :: fr ++ wh ++ gr ++ hv ++ wi ++ ob ++ ls ++ ks)
      (mkSelect s fl l (Some s') (Some trs) w g h win or_ lm lk)
with bottom_is : ending -> tks -> stmt -> Prop :=
| bt_select b ts s : select_is b ts s -> bottom_is b ts (SSelect s)
| bt_paren s1 ts s2 q : query_is ts q -> bottom_is Closed ((TLParen, s1) :: ts ++ [(TRParen, s2)]) q
with unions_are : ending -> tks -> list (union_with stmt) -> Prop :=
| un_one b t s us ty ts q : kw_tok o "UNION" t -> union_type_is us ty -> bottom_is b ts q ->
    unions_are b ((t, s) :: us ++ ts) [mkUnionWith s ty q]
| un_more b t s us ty b' ts q ts' l : kw_tok o "UNION" t -> union_type_is us ty -> bottom_is b' ts q -> unions_are b ts' l ->
    unions_are b ((t, s) :: us ++ ts ++ ts') (mkUnionWith s ty q :: l)
with query_is : tks -> stmt -> Prop :=
| qu_one b ts q : bottom_is b ts q -> query_is ts q
| qu_union b ts q b' us l ob or_ ls lm : bottom_is b ts q -> unions_are b' us l -> order_is ob or_ -> limit_is ls lm ->
    (b' = WithFrom -> ob = [] /\ ls = []) ->
    query_is (ts ++ us ++ ob ++ ls) (SUnion (mkUnion q l or_ lm)).
End Spec.
