(** Model of src/create.rs. *)
From Verif Require Export Expr.

(** [if let Some(if_) = skip_keyword(IF) { Some(consume_keywords(&[NOT, EXISTS])?.join_span(&if_)) } else { None }];
    src/create.rs:422-430, 577-585, 839-847; with the operands of [join_span]
    exchanged (no effect) 1021-1025. *)
Definition parse_if_not_exists : prog (option span) :=
  i <- skip_keyword "IF" ;;
  match i with
  | Some if_ => s <- consume_keywords ["NOT"; "EXISTS"] ;; Ret (Some (join s if_))
  | None => Ret None
  end.
(** The same with [IF EXISTS]: src/drop.rs, src/alter.rs. *)
Definition parse_if_exists : prog (option span) :=
  i <- skip_keyword "IF" ;;
  match i with
  | Some if_ => s <- consume_keyword "EXISTS" ;; Ret (Some (join s if_))
  | None => Ret None
  end.

(** [consume_plain_identifier()?; while skip_token(Comma).is_some() { consume_plain_identifier()?; }],
    results dropped (src/create.rs:367-370, 375-378). *)
Definition skip_identifiers (n : nat) : prog unit :=
  sep_list n consume_plain_identifier ;;; Ret tt.

(** src/create.rs:360-400 [parse_create_constraint_definition]. *)
Definition parse_create_constraint_definition (n : nat) : prog (create_definition expr) :=
  s <- consume_keyword "CONSTRAINT" ;;
  i <- consume_plain_identifier ;;
  consume_keywords ["FOREIGN"; "KEY"] ;;;
  consume_token TLParen ;;;
  skip_identifiers n ;;;
  consume_token TRParen ;;;
  consume_keyword "REFERENCES" ;;;
  consume_plain_identifier ;;;
  consume_token TLParen ;;;
  skip_identifiers n ;;;
  consume_token TRParen ;;;
  o <- skip_keyword "ON" ;;
  (match o with
   | Some _ =>
       consume_keyword "DELETE" ;;;
       t <- token ;;
       if is_kw t "CASCADE" then consume_keyword "CASCADE" ;;; Ret tt
       else if is_kw t "DELETE" then consume_keyword "DELETE" ;;; Ret tt
       else if is_kw t "RESTRICT" then consume_keyword "RESTRICT" ;;; Ret tt
       else if is_kw t "SET" then consume_keywords ["SET"; "NULL"] ;;; Ret tt
       else expected_failure "CASCADE, DELETE OR SET NULL"
   | None => Ret tt
   end) ;;;
  Ret (CDConstraint s i).

(** src/create.rs:402-413 [parse_create_definition]. *)
Definition parse_create_definition (r : recs) : prog (create_definition expr) :=
  t <- token ;;
  if is_kw t "CONSTRAINT" then parse_create_constraint_definition (r_n r)
  else match t with
       | TIdent _ _ =>
           i <- consume_plain_identifier ;;
           d <- parse_data_type r false ;;
           Ret (CDColumn i d)
       | _ => expected_failure "identifier"
       end.

(** src/create.rs:415-450 [parse_create_view]. *)
Definition parse_create_view (r : recs) (create_span : span) (opts : list create_option) : prog stmt :=
  view_span <- consume_keyword "VIEW" ;;
  ine <- parse_if_not_exists ;;
  name <- parse_qualified_name (r_n r) ;;
  as_span <- consume_keyword "AS" ;;
  q <- parse_compound_query r ;;
  Ret (SCreateView (mkCreateView create_span opts view_span ine name as_span q)).

(** src/create.rs:592-608: direction of a parameter. *)
Definition parse_param_direction : prog (option tagged) :=
  t <- token ;;
  if is_kw t "IN" then
    i <- consume_keyword "IN" ;;
    o <- skip_keyword "OUT" ;;
    Ret (Some match o with
              | Some out => mkTag "InOut" (join i out)
              | None => mkTag "In" i
              end)
  else if is_kw t "OUT" then s <- consume_keyword "OUT" ;; Ret (Some (mkTag "Out" s))
  else if is_kw t "INOUT" then s <- consume_keyword "INOUT" ;; Ret (Some (mkTag "InOut" s))
  else Ret None.
(** src/create.rs:591-616: one parameter. *)
Definition parse_function_param (r : recs) : prog (option tagged * ident * data_type expr) :=
  d <- parse_param_direction ;;
  i <- consume_plain_identifier ;;
  ty <- parse_data_type r false ;;
  Ret (d, i, ty).

(** src/create.rs:622-635: skip over the [$$ ... $$] body. *)
Definition skip_dollar_body (n : nat) : prog unit :=
  consume_token TDoubleDollar ;;;
  loop n (fun _ : unit =>
    t <- token ;;
    if tok_eqb t TEof || tok_eqb t TDoubleDollar then
      consume_token TDoubleDollar ;;; Ret (inr tt)
    else consume ;;; Ret (inl tt)) tt.

(** src/create.rs:639-697: one characteristic; [None]: [break]. *)
Definition parse_characteristic (n : nat) : prog (option function_characteristic) :=
  t <- token ;;
  if is_kw t "LANGUAGE" then
    lg <- consume ;;
    t <- token ;;
    if is_kw t "SQL" then s <- consume ;; Ret (Some (FCTag (mkTag "LanguageSql" (join lg s))))
    else if is_kw t "PLPGSQL" then s <- consume ;; Ret (Some (FCTag (mkTag "LanguagePlpgsql" (join lg s))))
    else expected_failure "language name"
  else if is_kw t "NOT" then
    s <- consume_keywords ["NOT"; "DETERMINISTIC"] ;; Ret (Some (FCTag (mkTag "NotDeterministic" s)))
  else if is_kw t "DETERMINISTIC" then
    s <- consume_keyword "DETERMINISTIC" ;; Ret (Some (FCTag (mkTag "Deterministic" s)))
  else if is_kw t "CONTAINS" then
    s <- consume_keywords ["CONTAINS"; "SQL"] ;; Ret (Some (FCTag (mkTag "ContainsSql" s)))
  else if is_kw t "NO" then
    s <- consume_keywords ["NO"; "SQL"] ;; Ret (Some (FCTag (mkTag "NoSql" s)))
  else if is_kw t "READS" then
    s <- consume_keywords ["READS"; "SQL"; "DATA"] ;; Ret (Some (FCTag (mkTag "ReadsSqlData" s)))
  else if is_kw t "MODIFIES" then
    s <- consume_keywords ["MODIFIES"; "SQL"; "DATA"] ;; Ret (Some (FCTag (mkTag "ModifiesSqlData" s)))
  else if is_kw t "COMMENT" then
    consume_keyword "COMMENT" ;;;
    s <- consume_string n ;;
    Ret (Some (FCComment s))
  else if is_kw t "SQL" then
    sp <- consume_keywords ["SQL"; "SECURITY"] ;;
    t <- token ;;
    if is_kw t "DEFINER" then
      s <- consume_keyword "DEFINER" ;; Ret (Some (FCTag (mkTag "SqlSecurityDefiner" (join s sp))))
    else if is_kw t "USER" then
      s <- consume_keyword "USER" ;; Ret (Some (FCTag (mkTag "SqlSecurityUser" (join s sp))))
    else expected_failure "'DEFINER' or 'USER'"
  else Ret None.

(** src/create.rs:570-722 [parse_create_function]. *)
Definition parse_create_function (r : recs) (create_span : span) (opts : list create_option) : prog stmt :=
  function_span <- consume_keyword "FUNCTION" ;;
  ine <- parse_if_not_exists ;;
  name <- consume_plain_identifier ;;
  consume_token TLParen ;;;
  params <- sep_list_recovered (r_n r) "')'" (parse_function_param r) ;;
  consume_token TRParen ;;;
  returns_span <- consume_keyword "RETURNS" ;;
  return_type <- parse_data_type r true ;;
  d <- dialect_ ;;
  (if is_postgresql d then
     a <- skip_keyword "AS" ;;
     match a with Some _ => skip_dollar_body (r_n r) | None => Ret tt end
   else Ret tt) ;;;
  chars <- loop (r_n r) (fun l : list function_characteristic =>
             c <- parse_characteristic (r_n r) ;;
             match c with Some c => Ret (inl (l ++ [c])) | None => Ret (inr l) end) [] ;;
  return_ <- (if is_maria d then
                s <- r_stmt r ;;
                match s with
                | Some s => Ret (Some s)
                | None => expected_failure "statement"
                end
              else Ret None) ;;
  Ret (SCreateFunction (mkCreateFunction create_span opts function_span ine name params returns_span
                          return_type chars return_)).

(** src/create.rs:832-902 [parse_create_trigger]. *)
Definition parse_create_trigger (r : recs) (create_span : span) (opts : list create_option) : prog stmt :=
  trigger_span <- consume_keyword "TRIGGER" ;;
  ine <- parse_if_not_exists ;;
  name <- consume_plain_identifier ;;
  t <- token ;;
  time <- (if is_kw t "AFTER" then s <- consume_keyword "AFTER" ;; Ret (mkTag "After" s)
           else if is_kw t "BEFORE" then s <- consume_keyword "BEFORE" ;; Ret (mkTag "Before" s)
           else expected_failure "'BEFORE' or 'AFTER'") ;;
  t <- token ;;
  event <- (if is_kw t "UPDATE" then s <- consume_keyword "UPDATE" ;; Ret (mkTag "Update" s)
            else if is_kw t "INSERT" then s <- consume_keyword "INSERT" ;; Ret (mkTag "Insert" s)
            else if is_kw t "DELETE" then s <- consume_keyword "DELETE" ;; Ret (mkTag "Delete" s)
            else expected_failure "'UPDATE' or 'INSERT' or 'DELETE'") ;;
  on_span <- consume_keyword "ON" ;;
  table <- consume_plain_identifier ;;
  fer <- consume_keywords ["FOR"; "EACH"; "ROW"] ;;
  old <- perf OPermit ;;
  perf (OSetPermit true) ;;;
  s <- r_stmt r ;;
  statement <- match s with Some v => Ret v | None => expected_failure "statement" end ;;
  perf (OSetPermit old) ;;;
  Ret (SCreateTrigger (mkCreateTrigger create_span opts trigger_span ine name time event on_span table
                         fer statement)).

(** src/create.rs:932-968 [parse_create_type]. *)
Definition parse_create_type (r : recs) (create_span : span) (opts : list create_option) : prog stmt :=
  type_span <- consume_keyword "TYPE" ;;
  d <- dialect_ ;;
  (if is_postgresql d then Ret tt else err "CREATE TYPE only supported by postgresql" type_span) ;;;
  name <- consume_plain_identifier ;;
  as_enum <- consume_keywords ["AS"; "ENUM"] ;;
  consume_token TLParen ;;;
  values <- recovered_list2 (r_n r) (consume_string (r_n r)) ;;
  consume_token TRParen ;;;
  Ret (SCreateTypeEnum (mkCreateTypeEnum create_span opts type_span name as_enum values)).

(** src/create.rs:1041-1050: operator classes. *)
Definition opclasses : list (string * unit) := [
  ("TEXT_PATTERN_OPS", tt); ("VARCHAR_PATTERN_OPS", tt); ("BPCHAR_PATTERN_OPS", tt);
  ("INT8_OPS", tt); ("INT4_OPS", tt); ("INT2_OPS", tt) ].
(** src/create.rs:1039-1056: one column of an index. *)
Definition parse_index_column : prog ident :=
  i <- consume_plain_identifier ;;
  t <- token ;;
  match kw_assoc opclasses t with
  | Some _ =>
      s <- consume ;;
      d <- dialect_ ;;
      (if is_postgresql d then Ret tt else err "Opclasses not supporetd" s) ;;;
      Ret i
  | None => Ret i
  end.

(** src/create.rs:1015-1089 [parse_create_index]. *)
Definition parse_create_index (r : recs) (create_span : span) (opts : list create_option) : prog stmt :=
  index_span <- consume_keyword "INDEX" ;;
  ine <- parse_if_not_exists ;;
  name <- consume_plain_identifier ;;
  on_span <- consume_keyword "ON" ;;
  table <- parse_qualified_name (r_n r) ;;
  u <- skip_keyword "USING" ;;
  index_options <- match u with
                   | Some using_span =>
                       g <- consume_keyword "GIST" ;; Ret [mkTag "UsingGist" (join g using_span)]
                   | None => Ret []
                   end ;;
  lp <- consume_token TLParen ;;
  cols <- sep_list (r_n r) parse_index_column ;;
  rp <- consume_token TRParen ;;
  w <- skip_keyword "WHERE" ;;
  where_ <- match w with
            | Some where_span =>
                e <- r_expr r false ;;
                d <- dialect_ ;;
                (if is_maria d then
                   err_at "Partial indexes not supported" (jn (spn where_span) (spn e))
                 else Ret tt) ;;;
                Ret (Some (where_span, e))
            | None => Ret None
            end ;;
  Ret (SCreateIndex (mkCreateIndex create_span opts index_span name ine on_span table index_options
                       lp cols rp where_)).

(** src/create.rs:1098-1101: the name before it has been read. *)
Definition default_qname : qname := mkQName [] (mkIdent [] (0, 0)).
(** src/create.rs:1104-1115: the closure reading [IF NOT EXISTS] and the name; what
    was assigned before a failure is kept. *)
Definition create_table_head (n : nat) : prog (qname * option span * bool) :=
  let name (ine : option span) :=
    Try (parse_qualified_name n) (fun q =>
      match q with
      | Some q => Ret (q, ine, true)
      | None => Ret (default_qname, ine, false)
      end) in
  i <- skip_keyword "IF" ;;
  match i with
  | Some if_ =>
      Try (consume_keywords ["NOT"; "EXISTS"]) (fun s =>
        match s with
        | Some s => name (Some (sp_start if_, sp_end s))
        | None => Ret (default_qname, None, false)
        end)
  | None => name None
  end.

(** The table options of the form [KEYWORD [=] identifier] (src/create.rs:1147-1154, 1177-1201). *)
Definition ident_options : list (string * string) := [
  ("ENGINE", "Engine"); ("CHARSET", "CharSet"); ("COLLATE", "Collate"); ("ROW_FORMAT", "RowFormat") ].
Definition default_options_ : list (string * string) := [
  ("CHARSET", "DefaultCharSet"); ("COLLATE", "DefaultCollate") ].
(** src/create.rs:1145-1219: one iteration of the loop over table options. *)
Definition parse_table_option (n : nat) (l : list table_option) : prog (list table_option * ctl) :=
  identifier <- cur_span ;;
  t <- token ;;
  d <- perf ODelim ;;
  match kw_assoc ident_options t with
  | Some (k, c) =>
      consume_keyword k ;;;
      skip_token TEq ;;;
      v <- consume_plain_identifier ;;
      Ret (l ++ [TOIdent c identifier v], Continue)
  | None =>
  if is_kw t "DEFAULT" then
    consume_keyword "DEFAULT" ;;;
    t <- token ;;
    match kw_assoc default_options_ t with
    | Some (k, c) =>
        consume_keyword k ;;;
        skip_token TEq ;;;
        v <- consume_plain_identifier ;;
        Ret (l ++ [TOIdent c identifier v], Continue)
    | None => expected_failure "'CHARSET' or 'COLLATE'"
    end
  else if is_kw t "COMMENT" then
    consume_keyword "COMMENT" ;;;
    skip_token TEq ;;;
    v <- consume_string n ;;
    Ret (l ++ [TOString "Comment" identifier v], Continue)
  else if is_kw t "STRICT" then
    consume_keyword "STRICT" ;;;
    Ret (l ++ [TOPlain "Strict" identifier], Continue)
  else if tok_eqb t d then Ret (l, Break)
  else if tok_eqb t TEof then Ret (l, Break)
  else expected_failure "table option or delimiter"
  end.

(** src/create.rs:1091-1234 [parse_create_table]. *)
Definition parse_create_table (r : recs) (create_span : span) (opts : list create_option) : prog stmt :=
  table_span <- consume_keyword "TABLE" ;;
  '(identifier, ine) <- recovered_acc "'('" (fun t => tok_eqb t TLParen) (create_table_head (r_n r)) ;;
  consume_token TLParen ;;;
  t <- token ;;
  defs <- (if negb (tok_eqb t TRParen) then recovered_list2 (r_n r) (parse_create_definition r)
           else Ret []) ;;
  consume_token TRParen ;;;
  delimiter <- perf ODelim ;;
  topts <- recovered_acc (tok_name delimiter) (fun t => tok_eqb t TEof || tok_eqb t delimiter)
             (loop_acc (r_n r) (parse_table_option (r_n r)) []) ;;
  Ret (SCreateTable (mkCreateTable create_span opts table_span identifier ine defs topts)).

(** src/create.rs:1241. *)
Definition creatable : string := "'TABLE' | 'VIEW' | 'TRIGGER' | 'FUNCTION' | 'INDEX' | 'TYPE'".
(** src/create.rs:1245-1258. *)
Definition is_creatable (t : tok) : bool :=
  is_kw t "TABLE" || is_kw t "VIEW" || is_kw t "TRIGGER" || is_kw t "FUNCTION" || is_kw t "INDEX"
  || is_kw t "TYPE".
Definition create_algorithms : list (string * string) :=
  [("UNDEFINED", "Undefined"); ("MERGE", "Merge"); ("TEMPTABLE", "TempTable")].
(** src/create.rs:1261-1318: one option; [None]: [break]. *)
Definition parse_create_option : prog (option create_option) :=
  t <- token ;;
  if is_kw t "OR" then
    s <- consume_keywords ["OR"; "REPLACE"] ;; Ret (Some (COTag (mkTag "OrReplace" s)))
  else if is_kw t "TEMPORARY" then
    s <- consume_keyword "TEMPORARY" ;; Ret (Some (COTag (mkTag "Temporary" s)))
  else if is_kw t "UNIQUE" then
    s <- consume_keyword "UNIQUE" ;; Ret (Some (COTag (mkTag "Unique" s)))
  else if is_kw t "ALGORITHM" then
    s <- consume_keyword "ALGORITHM" ;;
    consume_token TEq ;;;
    t <- token ;;
    match kw_assoc create_algorithms t with
    | Some (k, c) => a <- consume_keyword k ;; Ret (Some (COAlgorithm s (mkTag c a)))
    | None => expected_failure "'UNDEFINED', 'MERGE' or 'TEMPTABLE'"
    end
  else if is_kw t "DEFINER" then
    s <- consume_keyword "DEFINER" ;;
    consume_token TEq ;;;
    u <- consume_plain_identifier ;;
    consume_token TAt ;;;
    h <- consume_plain_identifier ;;
    Ret (Some (CODefiner s u h))
  else if is_kw t "SQL" then
    s <- consume_keywords ["SQL"; "SECURITY"] ;;
    t <- token ;;
    if is_kw t "DEFINER" then
      d <- consume_keyword "DEFINER" ;; Ret (Some (COSecurity "SqlSecurityDefiner" s d))
    else if is_kw t "USER" then
      d <- consume_keyword "USER" ;; Ret (Some (COSecurity "SqlSecurityUser" s d))
    else expected_failure "'DEFINER', 'USER'"
  else Ret None.

(** src/create.rs:1236-1337 [parse_create]. *)
Definition parse_create (r : recs) : prog stmt :=
  create_span <- cur_span ;;
  consume_keyword "CREATE" ;;;
  opts <- recovered_acc creatable is_creatable
            (loop_acc (r_n r) (fun l : list create_option =>
               o <- parse_create_option ;;
               match o with
               | Some o => Ret (l ++ [o], Continue)
               | None => Ret (l, Break)
               end) []) ;;
  t <- token ;;
  if is_kw t "INDEX" then parse_create_index r create_span opts
  else if is_kw t "TABLE" then parse_create_table r create_span opts
  else if is_kw t "VIEW" then parse_create_view r create_span opts
  else if is_kw t "FUNCTION" then parse_create_function r create_span opts
  else if is_kw t "TRIGGER" then parse_create_trigger r create_span opts
  else if is_kw t "TYPE" then parse_create_type r create_span opts
  else expected_failure creatable.
