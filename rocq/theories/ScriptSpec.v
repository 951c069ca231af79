(** Specification: a grammar, on tokens, of statements and scripts.  As in [GrammarSpec.v],
    [.._is o ts x] says that the tokens [ts] are such a phrase and that [x] is its AST.  Nothing
    here refers to the parser; [GrammarStmt.v] proves that it reads what the grammar generates. *)
From Verif Require Export DdlSpec.
Local Open Scope string_scope.
Local Open Scope list_scope.

(** The statements that may be used with WITH. *)
Definition data_statement (x : stmt) : Prop := match x with SSelect _ | SInsertReplace _ | SUpdate _ | SDelete _ => True | _ => False end.
Definition semicolons (ts : tks) : Prop := Forall (fun x : tok * span => fst x = TSemiColon) ts.
(** Handlers of exceptions; the AST does not keep them. *)
Inductive handler_is (o : reading) : tks -> unit -> Prop :=
| hn_is t s t1 v s1 t2 s2 ts e s3 : kw_tok o "WHEN" t -> name_tok o t1 v -> kw_tok o "THEN" t2 -> expr_is o true ts e ->
    handler_is o ((t, s) :: (t1, s1) :: (t2, s2) :: ts ++ [(TSemiColon, s3)]) tt.
(** The value that the conditions of a CASE statement are compared with. *)
Inductive case_value_is (o : reading) : tks -> option expr -> Prop :=
| cv_none : case_value_is o [] None
| cv_some ts e : expr_is o false ts e -> case_value_is o ts (Some e).

(** Statements.  [pm]: inside of a trigger, where BEGIN starts a block and END is not a statement.
    [k]: only the delimiter in force or the end of the input may follow the statement. *)
Inductive stmt_is (o : reading) : bool -> bool -> tks -> stmt -> Prop :=
| si_query pm ts q : query_is o ts q -> stmt_is o pm false ts q
| si_simple pm ts x : simple_is o ts x -> stmt_is o pm false ts x
| si_define pm ts x : define_is o ts x -> stmt_is o pm false ts x
| si_table pm ts x : create_table_is o ts x -> stmt_is o pm true ts x
| si_alter pm ts x : alter_is o ts x -> stmt_is o pm true ts x
(** MariaDB: the body of a function is a statement. *)
| si_function pm k hs f cs l bs x : o_dialect o = MariaDB -> function_is o hs f -> many (characteristic_is o) cs l -> stmt_is o pm k bs x -> after_type (cs ++ bs) ->
    stmt_is o pm k (hs ++ cs ++ bs) (SCreateFunction (f l (Some x)))
(** PostgreSQL: it is written between [$$] and [$$], and passed over. *)
| si_dollar pm hs f ds cs l : o_dialect o <> MariaDB -> function_is o hs f -> dollar_body_is o ds -> o_dialect o = PostgreSQL \/ ds = [] -> many (characteristic_is o) cs l ->
    (ds = [] -> after_type cs) -> stmt_is o pm false (hs ++ ds ++ cs) (SCreateFunction (f l None))
| si_trigger pm k hs f bs x : trigger_is o hs f -> stmt_is o true k bs x -> stmt_is o pm k (hs ++ bs) (SCreateTrigger (f x))
| si_begin t s : kw_tok o "BEGIN" t -> stmt_is o false false [(t, s)] (SBegin s)
| si_end t s : kw_tok o "END" t -> stmt_is o false false [(t, s)] (SEnd s)
| si_commit pm t s : kw_tok o "COMMIT" t -> stmt_is o pm false [(t, s)] (SCommit s)
| si_start pm t s t' s' : kw_tok o "START" t -> kw_tok o "TRANSACTION" t' -> stmt_is o pm false [(t, s); (t', s')] (SStartTransaction (join s' s))
| si_with pm t s bs l ts x : o_dialect o = PostgreSQL -> kw_tok o "WITH" t -> blocks_are o pm bs l -> stmt_is o pm false ts x -> data_statement x ->
    stmt_is o pm false ((t, s) :: bs ++ ts) (SWithQuery (mkWithQuery s l x))
| si_if pm t s ts l e t1 s1 t2 s2 : kw_tok o "IF" t -> conditions_are o pm None ts l e -> kw_tok o "END" t1 -> kw_tok o "IF" t2 ->
    stmt_is o pm false ((t, s) :: ts ++ [(t1, s1); (t2, s2)]) (SIf (mkIf s l e (join s2 s1)))
(** A CASE statement ends with END, not with END CASE. *)
| si_case pm t s vs v ts l e t1 s1 : kw_tok o "CASE" t -> case_value_is o vs v -> cases_are o pm ts l e -> kw_tok o "END" t1 ->
    stmt_is o pm false ((t, s) :: vs ++ ts ++ [(t1, s1)]) (SCase (mkCaseStatement s v l e s1))
| si_block ts l : body_is o true ts l -> stmt_is o true false ts (SBlock (mkBlock l))
| si_do pm t s s1 ts l s2 : kw_tok o "DO" t -> body_is o pm ts l ->
    stmt_is o pm false ((t, s) :: (TDoubleDollar, s1) :: ts ++ [(TDoubleDollar, s2)]) (SDo (mkBlock l))
(** WITH: [name AS (statement), ...] *)
with blocks_are (o : reading) : bool -> tks -> list (with_block stmt) -> Prop :=
| bl_one pm ts b : block_is o pm ts b -> blocks_are o pm ts [b]
| bl_more pm ts b s ts' l : block_is o pm ts b -> blocks_are o pm ts' l -> blocks_are o pm (ts ++ (TComma, s) :: ts') (b :: l)
with block_is (o : reading) : bool -> tks -> with_block stmt -> Prop :=
| bk_is pm t v s t1 s1 s2 ts x s3 : name_tok o t v -> kw_tok o "AS" t1 -> stmt_is o pm false ts x -> data_statement x ->
    block_is o pm ((t, s) :: (t1, s1) :: (TLParen, s2) :: ts ++ [(TRParen, s3)]) (mkWithBlock (mkIdent v s) s1 s2 x s3)
(** IF: a condition with its statements (after ELSEIF at [s0]), and what follows up to END.  Outside
    of triggers the last statement in front of END must not be followed by a semicolon. *)
with conditions_are (o : reading) : bool -> option span -> tks -> list (if_condition expr stmt) -> option (span * list stmt) -> Prop :=
| co_last pm s0 es e t s c ts l : expr_is o false es e -> kw_tok o "THEN" t -> statements_are o pm c ts l -> pm = true \/ c = true ->
    conditions_are o pm s0 (es ++ (t, s) :: ts) [mkIfCondition s0 e s l] None
| co_else pm s0 es e t s c ts l t' s' c' ts' l' : expr_is o false es e -> kw_tok o "THEN" t -> statements_are o pm c ts l ->
    kw_tok o "ELSE" t' -> statements_are o pm c' ts' l' -> pm = true \/ c' = true ->
    conditions_are o pm s0 (es ++ (t, s) :: ts ++ (t', s') :: ts') [mkIfCondition s0 e s l] (Some (s', l'))
| co_more pm s0 es e t s c ts l t' s' ts' l' el : expr_is o false es e -> kw_tok o "THEN" t -> statements_are o pm c ts l ->
    kw_tok o "ELSEIF" t' -> conditions_are o pm (Some s') ts' l' el ->
    conditions_are o pm s0 (es ++ (t, s) :: ts ++ (t', s') :: ts') (mkIfCondition s0 e s l :: l') el
(** CASE: the same with WHEN. *)
with cases_are (o : reading) : bool -> tks -> list (when_statement expr stmt) -> option (span * list stmt) -> Prop :=
| cw_last pm t0 s0 es e t s c ts l : kw_tok o "WHEN" t0 -> expr_is o false es e -> kw_tok o "THEN" t -> statements_are o pm c ts l -> pm = true \/ c = true ->
    cases_are o pm ((t0, s0) :: es ++ (t, s) :: ts) [mkWhenStatement s0 e s l] None
| cw_else pm t0 s0 es e t s c ts l t' s' c' ts' l' : kw_tok o "WHEN" t0 -> expr_is o false es e -> kw_tok o "THEN" t -> statements_are o pm c ts l ->
    kw_tok o "ELSE" t' -> statements_are o pm c' ts' l' -> pm = true \/ c' = true ->
    cases_are o pm ((t0, s0) :: es ++ (t, s) :: ts ++ (t', s') :: ts') [mkWhenStatement s0 e s l] (Some (s', l'))
| cw_more pm t0 s0 es e t s c ts l ts' l' el : kw_tok o "WHEN" t0 -> expr_is o false es e -> kw_tok o "THEN" t -> statements_are o pm c ts l ->
    cases_are o pm ts' l' el ->
    cases_are o pm ((t0, s0) :: es ++ (t, s) :: ts ++ ts') (mkWhenStatement s0 e s l :: l') el
(** BEGIN ... END with exception handlers or without. *)
with body_is (o : reading) : bool -> tks -> list stmt -> Prop :=
| bd_plain pm t s c ts l t1 s1 : kw_tok o "BEGIN" t -> statements_are o pm c ts l -> pm = true \/ c = true -> kw_tok o "END" t1 ->
    body_is o pm ((t, s) :: ts ++ [(t1, s1)]) l
| bd_exception pm t s ts l t1 s1 hs us t2 s2 : kw_tok o "BEGIN" t -> statements_are o pm false ts l -> kw_tok o "EXCEPTION" t1 -> many (handler_is o) hs us -> kw_tok o "END" t2 ->
    body_is o pm ((t, s) :: ts ++ (t1, s1) :: hs ++ [(t2, s2)]) l
(** Statements, each followed by a semicolon (here it is the delimiter in force), except that
    the last one may be followed by none ([c]); superfluous semicolons. *)
with statements_are (o : reading) : bool -> bool -> tks -> list stmt -> Prop :=
| li_end pm ds : semicolons ds -> statements_are o pm false ds []
| li_stmt pm c k ds ts x s us l : semicolons ds -> stmt_is o pm k ts x -> statements_are o pm c us l -> statements_are o pm c (ds ++ ts ++ (TSemiColon, s) :: us) (x :: l)
| li_last pm ds ts x : semicolons ds -> stmt_is o pm false ts x -> statements_are o pm true (ds ++ ts) [x].

(** The delimiters that may be set without a warning. *)
Definition delim_tok (t : tok) : Prop := t = TSemiColon \/ t = TDoubleDollar.
(** A script read while [d] is the delimiter: statements, each followed by the delimiter in
    force; superfluous delimiters; and DELIMITER commands.  Where a statement is followed by
    the other one of the two delimiters, or by the end of the input (at [e]), the delimiter is
    missing there, and everything up to the delimiter in force is passed over.  The last
    argument lists the delimiters that are missing, and where. *)
Inductive script_is (o : reading) (e : span) : tok -> tks -> list stmt -> list (tok * span) -> Prop :=
| sc_end d : script_is o e d [] [] []
| sc_delim d s ts l errs : script_is o e d ts l errs -> script_is o e d ((d, s) :: ts) l errs
| sc_stmt d s k ts x us l errs : stmt_is o false k ts x -> script_is o e d us l errs ->
    script_is o e d (ts ++ (d, s) :: us) (x :: l) errs
| sc_set d t s d' s' ts l errs : kw_tok o "DELIMITER" t -> delim_tok d' -> script_is o e d' ts l errs ->
    script_is o e d ((t, s) :: (d', s') :: ts) l errs
| sc_other d ts x y s js s' us l errs : stmt_is o false false ts x -> delim_tok y -> y <> d ->
    Forall (fun j => fst j <> d /\ fst j <> TEof /\ placeholder o (fst j) = false) js -> script_is o e d us l errs ->
    script_is o e d (ts ++ (y, s) :: js ++ (d, s') :: us) (x :: l) ((d, s) :: errs)
| sc_other_end d ts x y s js : stmt_is o false false ts x -> delim_tok y -> y <> d ->
    Forall (fun j => fst j <> d /\ fst j <> TEof /\ placeholder o (fst j) = false) js ->
    script_is o e d (ts ++ (y, s) :: js) [x] [(d, s)]
| sc_last d k ts x : stmt_is o false k ts x -> script_is o e d ts [x] [(d, e)].
(** What is reported for a missing delimiter. *)
Definition missing (x : tok * span) : level * text * span :=
  (Error, txt "Expected '" ++ txt (tok_name (fst x)) ++ txt "' here", snd x).
Definition seen (i : issue) : level * text * span := (i_level i, i_message i, i_span i).
