(** Model of src/qualified_name.rs and src/data_type.rs, and the record [recs] of
    the recursive entry points. *)
From Verif Require Export Ast.
Open Scope string_scope.
Open Scope list_scope.

(** The functions through which the recursion of the parser goes: expressions
    ([parse_expression(parser, inner)]), compound queries, statements.  A model
    function that (indirectly) calls itself takes these as a parameter; [Api.knot]
    ties the knot with a recursion budget.  [r_n] bounds the iterations of loops. *)
Record recs := mkRecs {
  r_n : nat;
  r_expr : bool -> prog expr;
  r_compound : prog stmt;
  r_stmt : prog (option stmt) }.

Definition is_rparen (t : tok) : bool := tok_eqb t TRParen.

(** src/qualified_name.rs:20-31 [parse_qualified_name]. *)
Definition parse_qualified_name (n : nat) : prog qname :=
  i <- consume_plain_identifier ;;
  loop n (fun q : list (ident * span) * ident =>
            d <- skip_token TPeriod ;;
            match d with
            | None => Ret (inr (mkQName (fst q) (snd q)))
            | Some dot =>
                i <- consume_plain_identifier ;;
                Ret (inl (fst q ++ [(snd q, dot)], i))
            end) ([], i).

(** src/data_type.rs:186-194 [parse_width] (usize). *)
Definition parse_width : prog (option (N * span)) :=
  t <- token ;;
  if negb (tok_eqb t TLParen) then Ret None
  else
    consume_token TLParen ;;;
    v <- recovered (0%N, (0, 0)) ")" is_rparen (consume_int usize_max) ;;
    consume_token TRParen ;;;
    Ret (Some v).

(** src/data_type.rs:196-201 [parse_width_req]. *)
Definition parse_width_req : prog (N * span) :=
  t <- token ;;
  if negb (tok_eqb t TLParen) then expected_failure "'('"
  else w <- parse_width ;; expect w PWidth.

(** src/data_type.rs:203-221 [parse_enum_set_values]. *)
Definition parse_enum_set_values (n : nat) : prog (list sstring) :=
  consume_token TLParen ;;;
  l <- recovered_acc ")" is_rparen
         (loop_acc n (fun l : list sstring =>
            s <- consume_string n ;;
            let l := l ++ [s] in
            t <- token ;;
            if tok_eqb t TComma then consume_token TComma ;;; Ret (l, Continue)
            else if tok_eqb t TRParen then Ret (l, Break)
            else expected_error "',' or ')'" ;;; Ret (l, Abort)) []) ;;
  consume_token TRParen ;;;
  Ret l.

(** The rows of src/data_type.rs:227-390 of the form
    [Keyword::K => (parser.consume_keyword(Keyword::K)?, Type::C)]. *)
Definition plain_types : list (string * string) := [
  ("BOOLEAN", "Boolean"); ("INET4", "Inet4"); ("INET6", "Inet6"); ("FLOAT8", "Float8");
  ("TIMESTAMPTZ", "Timestamptz"); ("DATE", "Date"); ("JSON", "Json"); ("BYTEA", "Bytea") ].
(** ... of the form [(parser.consume_keyword(Keyword::K)?, Type::C(parse_width(parser)?))]. *)
Definition width_types : list (string * string) := [
  ("TINYINT", "TinyInt"); ("SMALLINT", "SmallInt"); ("INTEGER", "Integer"); ("INT", "Int");
  ("BIGINT", "BigInt"); ("TINYTEXT", "TinyText"); ("CHAR", "Char"); ("TEXT", "Text");
  ("MEDIUMTEXT", "MediumText"); ("LONGTEXT", "LongText"); ("VARCHAR", "VarChar");
  ("TINYBLOB", "TinyBlob"); ("BLOB", "Blob"); ("MEDIUMBLOB", "MediumBlob");
  ("LONGBLOB", "LongBlob"); ("BINARY", "Binary"); ("DATETIME", "DateTime"); ("TIME", "Time") ].

(** src/data_type.rs:227-390, the type proper. *)
Definition parse_type (n : nat) : prog (span * type_) :=
  t <- token ;;
  d <- dialect_ ;;
  match kw_assoc plain_types t with
  | Some (k, c) => s <- consume_keyword k ;; Ret (s, TyPlain c)
  | None =>
  match kw_assoc width_types t with
  | Some (k, c) => s <- consume_keyword k ;; w <- parse_width ;; Ret (s, TyWidth c w)
  | None =>
  if is_kw t "VARBINARY" then
    s <- consume_keyword "VARBINARY" ;; w <- parse_width_req ;; Ret (s, TyVarBinary w)
  else if is_kw t "REAL" then
    s <- consume_keyword "REAL" ;;
    Ret (s, TyFloat (if is_sqlite d then "Double" else "Float"))
  else if is_kw t "FLOAT" then
    s <- consume_keyword "FLOAT" ;; Ret (s, TyFloat "Float")
  else if is_kw t "DOUBLE" then
    s <- (if is_postgresql d then consume_keywords ["DOUBLE"; "PRECISION"]
          else consume_keyword "DOUBLE") ;;
    Ret (s, TyFloat "Double")
  else if is_kw t "NUMERIC" then
    numeric <- consume_keyword "NUMERIC" ;;
    left <- consume_token TLParen ;;
    '(v1, s1) <- consume_int usize_max ;;
    comma <- consume_token TComma ;;
    '(v2, s2) <- consume_int usize_max ;;
    right <- consume_token TRParen ;;
    Ret (numeric, TyNumeric v1 v2 (join (join (join (join left s1) comma) s2) right))
  else if is_kw t "TIMESTAMP" then
    s <- consume_keyword "TIMESTAMP" ;;
    w <- parse_width ;;
    with_span <- skip_keyword "WITH" ;;
    tz <- match with_span with
          | Some with_span => z <- consume_keywords ["TIME"; "ZONE"] ;; Ret (Some (join with_span z))
          | None => Ret None
          end ;;
    Ret (s, TyTimestamp (mkTimestamp w tz))
  else if is_kw t "ENUM" then
    s <- consume_keyword "ENUM" ;; l <- parse_enum_set_values n ;; Ret (s, TyEnum l)
  else if is_kw t "SET" then
    s <- consume_keyword "SET" ;; l <- parse_enum_set_values n ;; Ret (s, TySet l)
  else if is_kw t "BIT" then
    s <- consume_keyword "BIT" ;; '(w, ws) <- parse_width_req ;; Ret (s, TyBit w ws)
  else match t with
       | TIdent _ _ => if is_postgresql d then s <- consume ;; Ret (s, TyNamed s)
                       else expected_failure "type"
       | _ => expected_failure "type"
       end
  end end.

(** The rows of src/data_type.rs:392-495 that consume one keyword and push a
    property with its span. *)
Definition tag_properties : list (string * string) := [
  ("SIGNED", "Signed"); ("AUTO_INCREMENT", "AutoIncrement"); ("UNSIGNED", "Unsigned");
  ("ZEROFILL", "Zerofill"); ("NULL", "Null"); ("VIRTUAL", "Virtual");
  ("PERSISTENT", "Persistent"); ("STORED", "Stored") ].

(** src/data_type.rs:470-479 and 483-492: [( expression )] with recovery. *)
Definition paren_expr (r : recs) : prog expr :=
  s1 <- consume_token TLParen ;;
  e <- recovered None ")" is_rparen (e <- r_expr r false ;; Ret (Some e)) ;;
  s2 <- consume_token TRParen ;;
  Ret match e with Some e => e | None => EInvalid (mkInvalid (join s1 s2)) end.

(** src/data_type.rs:392-495: one property; [None]: [break]. *)
Definition parse_property (r : recs) (no_as : bool) : prog (option (dt_property expr)) :=
  t <- token ;;
  d <- dialect_ ;;
  match kw_assoc tag_properties t with
  | Some (k, c) => s <- consume_keyword k ;; Ret (Some (DPTag (mkTag c s)))
  | None =>
  if is_kw t "NOT" then
    a <- consume_keyword "NOT" ;;
    b <- consume_keyword "NULL" ;;
    Ret (Some (DPTag (mkTag "NotNull" (sp_start a, sp_end b))))
  else if is_kw t "CHARACTER" then
    consume_keywords ["CHARACTER"; "SET"] ;;;
    i <- consume_plain_identifier ;;
    Ret (Some (DPCharset i))
  else if is_kw t "COLLATE" then
    consume_keyword "COLLATE" ;;;
    i <- consume_plain_identifier ;;
    Ret (Some (DPCharset i))
  else if is_kw t "COMMENT" then
    consume_keyword "COMMENT" ;;;
    s <- consume_string (r_n r) ;;
    Ret (Some (DPComment s))
  else if is_kw t "DEFAULT" then
    consume_keyword "DEFAULT" ;;;
    e <- r_expr r true ;;
    Ret (Some (DPDefault e))
  else if is_kw t "UNIQUE" then
    s <- consume_keyword "UNIQUE" ;;
    k <- skip_keyword "KEY" ;;
    Ret (Some (DPTag match k with
                     | Some s2 => mkTag "UniqueKey" (join s2 s)
                     | None => mkTag "Unique" s
                     end))
  else if is_kw t "GENERATED" then
    s <- (if is_postgresql d then consume_keywords ["GENERATED"; "ALWAYS"; "AS"; "IDENTITY"]
          else consume_keywords ["GENERATED"; "ALWAYS"]) ;;
    Ret (Some (DPTag (mkTag "GeneratedAlways" s)))
  else if is_kw t "AS" && negb no_as then
    s <- consume_keyword "AS" ;;
    e <- paren_expr r ;;
    Ret (Some (DPAs s e))
  else if is_kw t "PRIMARY" then
    s <- consume_keywords ["PRIMARY"; "KEY"] ;;
    Ret (Some (DPTag (mkTag "PrimaryKey" s)))
  else if is_kw t "CHECK" then
    s <- consume_keyword "CHECK" ;;
    e <- paren_expr r ;;
    Ret (Some (DPCheck s e))
  else Ret None
  end.

(** src/data_type.rs:223-503 [parse_data_type]. *)
Definition parse_data_type (r : recs) (no_as : bool) : prog (data_type expr) :=
  '(identifier, ty) <- parse_type (r_n r) ;;
  props <- loop (r_n r) (fun l : list (dt_property expr) =>
             p <- parse_property r no_as ;;
             match p with Some p => Ret (inl (l ++ [p])) | None => Ret (inr l) end) [] ;;
  Ret (mkDataType identifier ty props).
