(** Model of src/alter.rs. *)
From Verif Require Export Create.

(** The rows of src/alter.rs:336-346. *)
Definition index_types : list (string * string) :=
  [("BTREE", "IndexTypeBTree"); ("HASH", "IndexTypeHash"); ("RTREE", "IndexTypeRTree")].
(** src/alter.rs:331-349 [parse_index_type]; returns the option to be pushed. *)
Definition parse_index_type : prog index_option :=
  consume_keyword "USING" ;;;
  t <- token ;;
  match kw_assoc index_types t with
  | Some (k, c) => s <- consume_keyword k ;; Ret (IOTag (mkTag c s))
  | None => expected_failure "'BTREE', 'RTREE' or 'HASH'"
  end.

(** src/alter.rs:351-366 [parse_index_options]; [l] is the vector pushed to. *)
Definition parse_index_options (n : nat) (l : list index_option) : prog (list index_option) :=
  loop n (fun l : list index_option =>
    t <- token ;;
    if is_kw t "USING" then o <- parse_index_type ;; Ret (inl (l ++ [o]))
    else if is_kw t "COMMENT" then
      consume_keyword "COMMENT" ;;;
      s <- consume_string n ;;
      Ret (inl (l ++ [IOComment s]))
    else Ret (inr l)) l.

(** src/alter.rs:374-388: one indexed column; the size is a u32. *)
Definition parse_index_col : prog index_col :=
  name <- consume_plain_identifier ;;
  p <- skip_token TLParen ;;
  size <- match p with
          | Some _ =>
              v <- recovered (0%N, (0, 0)) "')'" is_rparen (consume_int u32_max) ;;
              consume_token TRParen ;;;
              Ret (Some v)
          | None => Ret None
          end ;;
  Ret (mkIndexCol name size).
(** src/alter.rs:368-395 [parse_index_cols]. *)
Definition parse_index_cols (n : nat) : prog (list index_col) :=
  consume_token TLParen ;;;
  l <- sep_list_recovered n "')'" parse_index_col ;;
  consume_token TRParen ;;;
  Ret l.
(** src/alter.rs:397-411 [parse_cols]. *)
Definition parse_cols (n : nat) : prog (list ident) :=
  consume_token TLParen ;;;
  l <- sep_list_recovered n "')'" consume_plain_identifier ;;
  consume_token TRParen ;;;
  Ret l.

(** src/alter.rs:418-421, 438-441, 557-560: an optional name. *)
Definition opt_name : prog (option ident) :=
  t <- token ;;
  if is_unreserved t then i <- consume_plain_identifier ;; Ret (Some i) else Ret None.
(** src/alter.rs:417-425. *)
Definition parse_constraint : prog (option (span * option ident)) :=
  c <- skip_keyword "CONSTRAINT" ;;
  match c with
  | Some s => v <- opt_name ;; Ret (Some (s, v))
  | None => Ret None
  end.

(** src/alter.rs:449-483: what follows ON; note the arm for SET DEFAULT, which
    tests for DELETE and then consumes DEFAULT, and the one for NO ACTION, which
    builds [SetNull]. *)
Definition parse_fk_on (on : span) : prog foreign_key_on :=
  t <- token ;;
  ty <- (if is_kw t "UPDATE" then s <- consume_keyword "UPDATE" ;; Ret (mkTag "ForeignKeyOnType::Update" (join s on))
         else if is_kw t "DELETE" then s <- consume_keyword "DELETE" ;; Ret (mkTag "ForeignKeyOnType::Delete" (join s on))
         else expected_failure "'UPDATE' or 'DELETE'") ;;
  t <- token ;;
  action <-
    (if is_kw t "RESTRICT" then s <- consume_keyword "RESTRICT" ;; Ret (mkTag "ForeignKeyOnAction::Restrict" s)
     else if is_kw t "CASCADE" then s <- consume_keyword "CASCADE" ;; Ret (mkTag "ForeignKeyOnAction::Cascade" s)
     else if is_kw t "SET" then
       set <- consume_keyword "SET" ;;
       t <- token ;;
       if is_kw t "NULL" then s <- consume_keyword "NULL" ;; Ret (mkTag "ForeignKeyOnAction::SetNull" (join s set))
       else if is_kw t "DELETE" then
         s <- consume_keyword "DEFAULT" ;; Ret (mkTag "ForeignKeyOnAction::SetDefault" (join s set))
       else expected_failure "'NULL' or 'DEFAULT'"
     else if is_kw t "NO" then s <- consume_keywords ["NO"; "ACTION"] ;; Ret (mkTag "ForeignKeyOnAction::SetNull" s)
     else expected_failure "'RESTRICT' or 'CASCADE', 'SET' or 'NO") ;;
  Ret (mkFKOn ty action).

(** src/alter.rs:427-498: ADD ... FOREIGN KEY. *)
Definition parse_add_foreign_key (n : nat) (add_span : span)
           (constraint : option (span * option ident)) : prog (alter_specification expr) :=
  fk <- consume_keywords ["FOREIGN"; "KEY"] ;;
  ine <- parse_if_not_exists ;;
  name <- opt_name ;;
  cols <- parse_index_cols n ;;
  refs <- consume_keyword "REFERENCES" ;;
  table <- consume_plain_identifier ;;
  rcols <- parse_cols n ;;
  ons <- loop n (fun l : list foreign_key_on =>
           o <- skip_keyword "ON" ;;
           match o with
           | Some on => f <- parse_fk_on on ;; Ret (inl (l ++ [f]))
           | None => Ret (inr l)
           end) [] ;;
  Ret (AddForeignKey add_span constraint fk ine name cols refs table rcols ons).

(** src/alter.rs:514-543: [KEY] or [INDEX] after FULLTEXT, SPATIAL or UNIQUE (keyword
    [k]); all three build [IndexType::FullText]. *)
Definition parse_index_kind (k : string) : prog tagged :=
  s <- consume_keyword k ;;
  t <- token ;;
  match kw_assoc [("INDEX", tt); ("KEY", tt)] t with
  | Some (k, _) => s2 <- consume_keyword k ;; Ret (mkTag "IndexType::FullText" (join s2 s))
  | None => expected_failure "'KEY' or 'INDEX'"
  end.

(** src/alter.rs:499-578: ADD ... INDEX. *)
Definition parse_add_index (n : nat) (add_span : span)
           (constraint : option (span * option ident)) : prog (alter_specification expr) :=
  t <- token ;;
  ty <- (if is_kw t "PRIMARY" then s <- consume_keywords ["PRIMARY"; "KEY"] ;; Ret (mkTag "IndexType::Primary" s)
         else if is_kw t "INDEX" || is_kw t "KEY" then s <- consume ;; Ret (mkTag "IndexType::Index" s)
         else if is_kw t "FULLTEXT" then parse_index_kind "FULLTEXT"
         else if is_kw t "SPATIAL" then parse_index_kind "SPATIAL"
         else if is_kw t "UNIQUE" then parse_index_kind "UNIQUE"
         else ice "src/alter.rs:544") ;;
  ine <- parse_if_not_exists ;;
  name <- opt_name ;;
  t <- token ;;
  opts <- (if is_kw t "USING" then o <- parse_index_type ;; Ret [o] else Ret []) ;;
  cols <- parse_index_cols n ;;
  opts <- parse_index_options n opts ;;
  Ret (AddIndex add_span ty ine name constraint cols opts).

(** src/alter.rs:579-601: ADD COLUMN. *)
Definition parse_add_column (r : recs) (add_span : span) : prog (alter_specification expr) :=
  consume_keyword "COLUMN" ;;;
  t <- token ;;
  ine <- (if is_kw t "IF" then s <- consume_keywords ["IF"; "NOT"; "EXISTS"] ;; Ret (Some s)
          else Ret None) ;;
  d <- dialect_ ;;
  (match ine with
   | Some s => if is_maria d then err "IF NOT EXIST is not supported" s else Ret tt
   | None => Ret tt
   end) ;;;
  i <- consume_plain_identifier ;;
  ty <- parse_data_type r false ;;
  Ret (AddColumn add_span ine i ty).

(** src/alter.rs:413-604 [parse_add_alter_specification]. *)
Definition parse_add_alter_specification (r : recs) : prog (alter_specification expr) :=
  add_span <- consume_keyword "ADD" ;;
  constraint <- parse_constraint ;;
  t <- token ;;
  if is_kw t "FOREIGN" then parse_add_foreign_key (r_n r) add_span constraint
  else if is_kw t "PRIMARY" || is_kw t "INDEX" || is_kw t "KEY" || is_kw t "FULLTEXT"
          || is_kw t "UNIQUE" || is_kw t "SPATIAL" then parse_add_index (r_n r) add_span constraint
  else if is_kw t "COLUMN" then parse_add_column r add_span
  else expected_failure "addable".

(** src/alter.rs:733-776: the action of ALTER COLUMN. *)
Definition parse_alter_column_action (r : recs) : prog (alter_column_action expr) :=
  t <- token ;;
  if is_kw t "SET" then
    set_span <- consume ;;
    t <- token ;;
    if is_kw t "DEFAULT" then
      s <- consume ;;
      e <- r_expr r false ;;
      Ret (ACSetDefault (join s set_span) e)
    else if is_kw t "NOT" then
      s <- consume_keywords ["NOT"; "NULL"] ;; Ret (ACTag (mkTag "SetNotNull" (join set_span s)))
    else expected_failure "'DEFAULT' or 'NOT NULL'"
  else if is_kw t "DROP" then
    set_span <- consume ;;
    t <- token ;;
    if is_kw t "DEFAULT" then
      s <- consume ;; Ret (ACTag (mkTag "DropDefault" (join s set_span)))
    else if is_kw t "NOT" then
      s <- consume_keywords ["NOT"; "NULL"] ;; Ret (ACTag (mkTag "DropNotNull" (join set_span s)))
    else expected_failure "'DEFAULT' or 'NOT NULL'"
  else if is_kw t "TYPE" then
    s <- consume ;;
    ty <- parse_data_type r false ;;
    Ret (ACType s ty)
  else expected_failure "alter column action".

(** src/alter.rs:690-788: one alter specification. *)
Definition parse_alter_specification (r : recs) : prog (alter_specification expr) :=
  t <- token ;;
  if is_kw t "ADD" then parse_add_alter_specification r
  else if is_kw t "MODIFY" then
    m <- consume_keyword "MODIFY" ;;
    c <- skip_keyword "COLUMN" ;;
    ie <- parse_if_exists ;;
    col <- consume_plain_identifier ;;
    ty <- parse_data_type r false ;;
    Ret (Modify match c with Some v => join m v | None => m end ie col ty)
  else if is_kw t "OWNER" then
    s <- consume_keywords ["OWNER"; "TO"] ;;
    owner <- consume_plain_identifier ;;
    Ret (OwnerTo s owner)
  else if is_kw t "DROP" then
    s <- consume_keywords ["DROP"; "COLUMN"] ;;
    c <- consume_plain_identifier ;;
    cascade <- skip_keyword "CASCADE" ;;
    Ret (DropColumn s c cascade)
  else if is_kw t "ALTER" then
    s <- consume_keywords ["ALTER"; "COLUMN"] ;;
    c <- consume_plain_identifier ;;
    a <- parse_alter_column_action r ;;
    Ret (AlterColumn s c a)
  else expected_failure "alter specification".

(** src/alter.rs:674-800 [parse_alter_table]. *)
Definition parse_alter_table (r : recs) (alter_span : span) (online ignore : option span) : prog stmt :=
  table_span <- consume_keyword "TABLE" ;;
  ie <- parse_if_exists ;;
  table <- parse_qualified_name (r_n r) ;;
  d <- perf ODelim ;;
  specs <- recovered_acc (tok_name d) (fun t => tok_eqb t d || tok_eqb t TEof)
             (loop_acc (r_n r) (fun l : list (alter_specification expr) =>
                a <- parse_alter_specification r ;;
                c <- skip_token TComma ;;
                Ret (l ++ [a], match c with Some _ => Continue | None => Break end)) []) ;;
  Ret (SAlterTable (mkAlterTable alter_span online ignore table_span ie table specs)).

(** src/alter.rs:802-814 [parse_alter]. *)
Definition parse_alter (r : recs) : prog stmt :=
  alter_span <- consume_keyword "ALTER" ;;
  online <- skip_keyword "ONLINE" ;;
  ignore <- skip_keyword "IGNORE" ;;
  t <- token ;;
  if is_kw t "TABLE" then parse_alter_table r alter_span online ignore
  else expected_failure "alterable".
