(** Model of src/with_query.rs and src/statement.rs (the compound queries are in Select.v). *)
From Verif Require Export Dml.

(** src/with_query.rs:95-100, 126-131. *)
Definition with_allowed (s : stmt) : bool :=
  match s with SSelect _ | SInsertReplace _ | SUpdate _ | SDelete _ => true | _ => false end.
(** src/with_query.rs:77-122: one WITH block. *)
Definition parse_with_block (r : recs) : prog (with_block stmt) :=
  i <- consume_plain_identifier ;;
  as_span <- consume_keyword "AS" ;;
  lp <- consume_token TLParen ;;
  s <- recovered None "')'" is_rparen
         (s <- r_stmt r ;;
          match s with
          | Some v => Ret (Some v)
          | None => expected_error "Statement" ;;; Ret None
          end) ;;
  rp <- consume_token TRParen ;;
  st <- match s with
        | Some v =>
            (if with_allowed v then Ret tt
             else err_at "Only SELECT, INSERT, UPDATE or DELETE allowed within WITH query" (spn v)) ;;;
            Ret v
        | None => Ret (SBegin lp)
        end ;;
  Ret (mkWithBlock i as_span lp st rp).
(** src/with_query.rs:72-151 [parse_with_query]. *)
Definition parse_with_query (r : recs) : prog (with_query stmt) :=
  with_span <- consume_keyword "WITH" ;;
  blocks <- sep_list (r_n r) (parse_with_block r) ;;
  s <- r_stmt r ;;
  st <- match s with
        | Some v =>
            (if with_allowed v then Ret tt
             else err_at "Only SELECT, INSERT, UPDATE or DELETE allowed as WITH query" (spn v)) ;;;
            Ret v
        | None => expected_failure "Statement"
        end ;;
  let res := mkWithQuery with_span blocks st in
  d <- dialect_ ;;
  (if is_postgresql d then Ret tt
   else err_at "WITH statements only supported by postgresql" (spn res)) ;;;
  Ret res.

(** src/statement.rs:52-65 [parse_set]. *)
Definition parse_set (r : recs) : prog (set_ expr) :=
  s <- consume_keyword "SET" ;;
  l <- sep_list (r_n r) (i <- consume_plain_identifier ;;
                         consume_token TEq ;;;
                         e <- r_expr r false ;;
                         Ret (i, e)) ;;
  Ret (mkSet s l).

(** src/statement.rs:474-479, 760-764 [reads_from_stdin]. *)
Definition reads_from_stdin (s : stmt) : bool := match s with SCopy _ => true | _ => false end.

(** [while parser.skip_token(t).is_some() {}] *)
Definition skip_tokens (n : nat) (w : tok) : prog unit :=
  loop n (fun _ : unit =>
    t <- skip_token w ;;
    match t with Some _ => Ret (inl tt) | None => Ret (inr tt) end) tt.
(** src/statement.rs:67-92 [parse_statement_list_inner]: the statements pushed to
    [out], and whether the function ended in [Ok]. *)
Definition parse_statement_list_inner (r : recs) : prog (list stmt * bool) :=
  loop_acc (r_n r) (fun l : list stmt =>
    skip_tokens (r_n r) TSemiColon ;;;
    s <- r_stmt r ;;
    match s with
    | None => Ret (l, Break)
    | Some v =>
        let l := l ++ [v] in
        t <- token ;;
        if negb (tok_eqb t TSemiColon) then Ret (l, Break)
        else if reads_from_stdin v then
          '(d, sp) <- perf OStdin ;;
          Ret (l ++ [SStdin (mkStdin d sp)], Continue)
        else consume_token TSemiColon ;;; Ret (l, Continue)
    end) [].
(** src/statement.rs:94-102 [parse_statement_list]. *)
Definition parse_statement_list (r : recs) : prog (list stmt * bool) :=
  old <- perf ODelim ;;
  perf (OSetDelim TSemiColon) ;;;
  x <- parse_statement_list_inner r ;;
  perf (OSetDelim old) ;;;
  Ret x.
(** [let mut v = Vec::new(); parse_statement_list(parser, &mut v)?;] *)
Definition parse_statement_list_local (r : recs) : prog (list stmt) :=
  '(l, ok) <- parse_statement_list r ;;
  if ok : bool then Ret l else Fail.

(** src/statement.rs:136-143: the exception handlers, dropped. *)
Definition parse_exception_handlers (r : recs) : prog unit :=
  loop (r_n r) (fun _ : unit =>
    w <- skip_keyword "WHEN" ;;
    match w with
    | None => Ret (inr tt)
    | Some _ =>
        consume_plain_identifier ;;;
        consume_keyword "THEN" ;;;
        r_expr r true ;;;
        consume_token TSemiColon ;;;
        Ret (inl tt)
    end) tt.
(** src/statement.rs:123-146 [parse_block]. *)
Definition parse_block (r : recs) : prog (list stmt) :=
  consume_keyword "BEGIN" ;;;
  l <- recovered_acc "'END' | 'EXCEPTION'" (fun t => is_kw t "END" || is_kw t "EXCEPTION")
         (parse_statement_list r) ;;
  e <- skip_keyword "EXCEPTION" ;;
  (match e with Some _ => parse_exception_handlers r | None => Ret tt end) ;;;
  consume_keyword "END" ;;;
  Ret l.

(** src/statement.rs:201-210, 212-221: a condition and its statements. *)
Definition parse_if_condition (r : recs) (elseif_span : option span) : prog (if_condition expr stmt) :=
  e <- r_expr r false ;;
  then_span <- consume_keyword "THEN" ;;
  l <- parse_statement_list_local r ;;
  Ret (mkIfCondition elseif_span e then_span l).
(** src/statement.rs:223-227, 610-614: ELSE and its statements; [false]: failed. *)
Definition parse_else (r : recs) : prog (option (span * list stmt) * bool) :=
  Try (e <- skip_keyword "ELSE" ;;
       match e with
       | Some s => l <- parse_statement_list_local r ;; Ret (Some (s, l))
       | None => Ret None
       end)
      (fun x => match x with Some e => Ret (e, true) | None => Ret (None, false) end).
(** src/statement.rs:193-238 [parse_if].  The first condition and those after ELSEIF
    are iterations of one loop, whose state also says whether it is the first one. *)
Definition parse_if (r : recs) : prog (if_ expr stmt) :=
  if_span <- consume_keyword "IF" ;;
  '(conds, else_) <-
    recovered_acc "'END'" (fun t => is_kw t "END")
      ('((conds, _), ok) <-
          loop_acc (r_n r) (fun x : list (if_condition expr stmt) * bool =>
            let (l, first) := x in
            if first : bool then c <- parse_if_condition r None ;; Ret ((l ++ [c], false), Continue)
            else
              e <- skip_keyword "ELSEIF" ;;
              match e with
              | Some s => c <- parse_if_condition r (Some s) ;; Ret ((l ++ [c], false), Continue)
              | None => Ret ((l, false), Break)
              end) ([], true) ;;
       if ok : bool then '(e, ok) <- parse_else r ;; Ret ((conds, e), ok)
       else Ret ((conds, None), false)) ;;
  endif_span <- consume_keywords ["END"; "IF"] ;;
  Ret (mkIf if_span conds else_ endif_span).

(** src/statement.rs:254-258 [parse_return]. *)
Definition parse_return (r : recs) : prog (return_ expr) :=
  s <- consume_keyword "RETURN" ;;
  e <- r_expr r false ;;
  Ret (mkReturn s e).

(** src/statement.rs:326-364. *)
Definition signal_names : list (string * string) := [
  ("CLASS_ORIGIN", "ClassOrigin"); ("SUBCLASS_ORIGIN", "SubclassOrigin");
  ("MESSAGE_TEXT", "MessageText"); ("MYSQL_ERRNO", "MysqlErrno");
  ("CONSTRAINT_CATALOG", "ConstraintCatalog"); ("CONSTRAINT_SCHEMA", "ConstraintSchema");
  ("CONSTRAINT_NAME", "ConstraintName"); ("CATALOG_NAME", "CatalogName");
  ("SCHEMA_NAME", "SchemaName"); ("TABLE_NAME", "TableName"); ("COLUMN_NAME", "ColumnName");
  ("CURSOR_NAME", "CursorName") ].
Definition parse_signal_set (r : recs) : prog (tagged * span * expr) :=
  t <- token ;;
  v <- match kw_assoc signal_names t with
       | Some (_, c) => s <- consume ;; Ret (mkTag c s)
       | None => expected_failure "Condition information item name"
       end ;;
  eq <- consume_token TEq ;;
  e <- r_expr r false ;;
  Ret (v, eq, e).
(** src/statement.rs:317-381 [parse_signal]. *)
Definition parse_signal (r : recs) : prog (signal expr) :=
  signal_span <- consume_keyword "SIGNAL" ;;
  sqlstate_span <- consume_keyword "SQLSTATE" ;;
  value_span <- skip_keyword "VALUE" ;;
  e <- r_expr r false ;;
  set_span <- skip_keyword "SET" ;;
  sets <- match set_span with
          | Some _ => sep_list (r_n r) (parse_signal_set r)
          | None => Ret []
          end ;;
  Ret (mkSignal signal_span sqlstate_span value_span e set_span sets).

(** src/statement.rs:523-529 [parse_do]. *)
Definition parse_do (r : recs) : prog stmt :=
  consume_keyword "DO" ;;;
  consume_token TDoubleDollar ;;;
  b <- parse_block r ;;
  consume_token TDoubleDollar ;;;
  Ret (SDo (mkBlock b)).

(** src/statement.rs:595-605: one WHEN of a case statement. *)
Definition parse_when_statement (r : recs) : prog (when_statement expr stmt) :=
  when_span <- consume_keyword "WHEN" ;;
  e <- r_expr r false ;;
  then_span <- consume_keyword "THEN" ;;
  l <- parse_statement_list_local r ;;
  Ret (mkWhenStatement when_span e then_span l).
(** src/statement.rs:578-626 [parse_case_statement]. *)
Definition parse_case_statement (r : recs) : prog (case_statement expr stmt) :=
  case_span <- consume_keyword "CASE" ;;
  t <- token ;;
  value <- (if negb (is_kw t "WHEN") then e <- r_expr r false ;; Ret (Some e) else Ret None) ;;
  '(whens, else_) <-
    recovered_acc "'END'" (fun t => is_kw t "END")
      ('(whens, ok) <-
          loop_acc (r_n r) (fun l : list (when_statement expr stmt) =>
            w <- parse_when_statement r ;;
            t <- token ;;
            Ret (l ++ [w], if negb (is_kw t "WHEN") then Break else Continue)) [] ;;
       if ok : bool then '(e, ok) <- parse_else r ;; Ret ((whens, e), ok)
       else Ret ((whens, None), false)) ;;
  end_span <- consume_keyword "END" ;;
  Ret (mkCaseStatement case_span value whens else_ end_span).

(** src/statement.rs:628-662 [parse_copy_statement]. *)
Definition parse_copy_statement (n : nat) : prog copy_ :=
  copy_span <- consume_keyword "COPY" ;;
  table <- consume_plain_identifier ;;
  consume_token TLParen ;;;
  t <- token ;;
  columns <- (if negb (tok_eqb t TRParen) then recovered_list2 n consume_plain_identifier
              else Ret []) ;;
  consume_token TRParen ;;;
  from_span <- consume_keyword "FROM" ;;
  stdin_span <- consume_keyword "STDIN" ;;
  Ret (mkCopy copy_span table columns from_span stdin_span).

Definition pmap {A B} (f : A -> B) (p : prog A) : prog (option B) := a <- p ;; Ret (Some (f a)).

(** src/statement.rs:482-521 [parse_statement]; [parse_begin], [parse_end],
    [parse_start], [parse_commit] (104-121) are inlined. *)
Definition parse_statement (r : recs) : prog (option stmt) :=
  t <- token ;;
  if is_kw t "CREATE" then pmap id (parse_create r)
  else if is_kw t "DROP" then pmap id (parse_drop (r_n r))
  else if is_kw t "SELECT" || tok_eqb t TLParen then pmap id (parse_compound_query r)
  else if is_kw t "DELETE" then pmap SDelete (parse_delete r)
  else if is_kw t "INSERT" || is_kw t "REPLACE" then pmap SInsertReplace (parse_insert_replace r)
  else if is_kw t "UPDATE" then pmap SUpdate (parse_update r)
  else if is_kw t "SET" then pmap SSet (parse_set r)
  else if is_kw t "SIGNAL" then pmap SSignal (parse_signal r)
  else if is_kw t "BEGIN" then
    p <- perf OPermit ;;
    if p : bool then pmap (fun b => SBlock (mkBlock b)) (parse_block r)
    else pmap SBegin (consume_keyword "BEGIN")
  else if is_kw t "END" then
    p <- perf OPermit ;;
    if p : bool then Ret None else pmap SEnd (consume_keyword "END")
  else if is_kw t "START" then pmap SStartTransaction (consume_keywords ["START"; "TRANSACTION"])
  else if is_kw t "COMMIT" then pmap SCommit (consume_keyword "COMMIT")
  else if is_kw t "IF" then pmap SIf (parse_if r)
  else if is_kw t "RETURN" then pmap SReturn (parse_return r)
  else if is_kw t "ALTER" then pmap id (parse_alter r)
  else if is_kw t "CASE" then pmap SCase (parse_case_statement r)
  else if is_kw t "COPY" then pmap SCopy (parse_copy_statement (r_n r))
  else if is_kw t "DO" then pmap id (parse_do r)
  else if is_kw t "TRUNCATE" then pmap STruncateTable (parse_truncate_table (r_n r))
  else if is_kw t "RENAME" then pmap SRenameTable (parse_rename_table (r_n r))
  else if is_kw t "WITH" then pmap SWithQuery (parse_with_query r)
  else Ret None.

(** src/statement.rs:843-852: skip delimiters; [true]: end of input. *)
Definition skip_delimiters (n : nat) : prog bool :=
  loop n (fun _ : unit =>
    t <- token ;;
    d <- perf ODelim ;;
    if tok_eqb t d then consume ;;; Ret (inl tt)
    else if tok_eqb t TEof then Ret (inr true)
    else Ret (inr false)) tt.
(** src/statement.rs:883-890: the custom recovery; [true]: end of input. *)
Definition recover_statement (n : nat) : prog bool :=
  loop n (fun _ : unit =>
    next ;;;
    t <- token ;;
    d <- perf ODelim ;;
    if tok_eqb t d then Ret (inr false)
    else if tok_eqb t TEof then Ret (inr true)
    else Ret (inl tt)) tt.
(** src/statement.rs:855-858. *)
Definition known_delimiter (t : tok) : bool := tok_eqb t TDoubleDollar || tok_eqb t TSemiColon.

(** src/statement.rs:840-899: one iteration of the loop of [parse_statements]. *)
Definition parse_statements_step (r : recs) (ans : list stmt) : prog (list stmt + list stmt) :=
  eof <- skip_delimiters (r_n r) ;;
  if eof : bool then Ret (inr ans)
  else
  k <- skip_keyword "DELIMITER" ;;
  match k with
  | Some _ =>
      t <- token ;;
      (if negb (known_delimiter t) then s <- cur_span ;; warn "Unknown delimiter" s else Ret tt) ;;;
      perf (OSetDelim t) ;;;
      next ;;;
      Ret (inl ans)
  | None =>
      s <- Try (s <- r_stmt r ;;
                match s with Some v => Ret v | None => expected_failure "Statement" end) Ret ;;
      let err := negb (is_some s) in
      let from_stdin := match s with Some v => reads_from_stdin v | None => false end in
      let ans := match s with Some v => ans ++ [v] | None => ans end in
      t <- token ;;
      d <- perf ODelim ;;
      eof <- (if negb (tok_eqb t d) then
                (if negb err then expected_error (tok_name d) else Ret tt) ;;;
                recover_statement (r_n r)
              else Ret false) ;;
      if eof : bool then Ret (inr ans)
      else if from_stdin then
        '(x, sp) <- perf OStdin ;;
        Ret (inl (ans ++ [SStdin (mkStdin x sp)]))
      else
        d <- perf ODelim ;;
        Try (consume_token d) (fun x =>
          match x with Some _ => Ret (inl ans) | None => Panic PDelimiter end)
  end.
(** src/statement.rs:840-899 [parse_statements]; [r] is the recursion. *)
Definition parse_statements_loop (r : recs) : prog (list stmt) :=
  loop (r_n r) (parse_statements_step r) [].
