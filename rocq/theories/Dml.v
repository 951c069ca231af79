(** Model of src/delete.rs, src/update.rs and src/insert_replace.rs. *)
From Verif Require Export Drop.

(** The RETURNING clause: src/delete.rs:169-180, src/update.rs:140-154 (which adds an
    error on the returned span), src/insert_replace.rs:504-515. *)
Definition parse_returning (r : recs) : prog (option (span * list (select_expr expr))) :=
  s <- skip_keyword "RETURNING" ;;
  match s with
  | Some s => l <- sep_list (r_n r) (parse_select_expr r) ;; Ret (Some (s, l))
  | None => Ret None
  end.

(** src/delete.rs:101-114. *)
Definition delete_flags : list (string * string) :=
  [("LOW_PRIORITY", "LowPriority"); ("QUICK", "Quick"); ("IGNORE", "Ignore")].
(** src/delete.rs:97-191 [parse_delete]. *)
Definition parse_delete (r : recs) : prog (delete expr stmt) :=
  delete_span <- consume_keyword "DELETE" ;;
  flags <- parse_flags (r_n r) delete_flags ;;
  f <- skip_keyword "FROM" ;;
  '(from_span, tables, us) <-
    match f with
    | Some from_span =>
        tables <- sep_list (r_n r) (parse_qualified_name (r_n r)) ;;
        Ret (from_span, tables, [])
    | None =>
        tables <- sep_list (r_n r) (parse_qualified_name (r_n r)) ;;
        from_span <- consume_keyword "FROM" ;;
        us <- sep_list (r_n r) (parse_table_reference r) ;;
        Ret (from_span, tables, us)
    end ;;
  u <- skip_keyword "USING" ;;
  us <- match u with
        | Some using_span =>
            (match us with
             | [] => Ret tt
             | _ => err "Using not allowed in delete with table names before FROM" using_span
             end) ;;;
            l <- sep_list (r_n r) (parse_table_reference r) ;;
            Ret (us ++ l)
        | None => Ret us
        end ;;
  where_ <- opt_where r "WHERE" ;;
  returning <- parse_returning r ;;
  Ret (mkDelete delete_span flags from_span tables us where_ returning).

(** src/update.rs:99-109. *)
Definition update_flags : list (string * string) :=
  [("LOW_PRIORITY", "LowPriority"); ("IGNORE", "Ignore")].
(** src/update.rs:122-128: a column, possibly qualified. *)
Definition parse_column_path (n : nat) : prog (list ident) :=
  i <- consume_plain_identifier ;;
  loop n (fun l : list ident =>
            d <- skip_token TPeriod ;;
            match d with
            | Some _ => i <- consume_plain_identifier ;; Ret (inl (l ++ [i]))
            | None => Ret (inr l)
            end) [i].
(** src/update.rs:95-164 [parse_update]. *)
Definition parse_update (r : recs) : prog (update expr stmt) :=
  update_span <- consume_keyword "UPDATE" ;;
  flags <- parse_flags (r_n r) update_flags ;;
  tables <- sep_list (r_n r) (parse_table_reference r) ;;
  set_span <- consume_keyword "SET" ;;
  set <- sep_list (r_n r) (col <- parse_column_path (r_n r) ;;
                           consume_token TEq ;;;
                           v <- r_expr r false ;;
                           Ret (col, v)) ;;
  where_ <- opt_where r "WHERE" ;;
  returning <- parse_returning r ;;
  d <- dialect_ ;;
  (match returning with
   | Some (s, _) => if is_postgresql d then Ret tt else err "Only support by postgesql" s
   | None => Ret tt
   end) ;;;
  Ret (mkUpdate update_span flags tables set_span set where_ returning).

(** src/insert_replace.rs:272-288. *)
Definition insert_flags : list (string * string) :=
  [("LOW_PRIORITY", "LowPriority"); ("HIGH_PRIORITY", "HighPriority"); ("DELAYED", "Delayed");
   ("IGNORE", "Ignore")].
(** src/insert_replace.rs:290-305: flags that REPLACE does not support. *)
Fixpoint check_insert_flags (insert : bool) (l : list tagged) : prog unit :=
  match l with
  | [] => Ret tt
  | f :: l =>
      (if (String.eqb (tag f) "HighPriority" || String.eqb (tag f) "Ignore") && negb insert
       then err "Not supported for replace" (tag_span f) else Ret tt) ;;;
      check_insert_flags insert l
  end.
(** src/insert_replace.rs:358-370, 394-407: [column = expression]. *)
Definition parse_set_pair (r : recs) : prog (set_pair expr) :=
  c <- consume_plain_identifier ;;
  eq <- consume_token TEq ;;
  v <- r_expr r false ;;
  Ret (mkSetPair c eq v).
(** [parser.err(m, &v).frag(fm, &fs)] for an AST value [v] whose span has been computed. *)
Definition err_at_frag (m : string) (s : sres) (fm : string) (fs : span) : prog unit :=
  match s with
  | SSome s => err_frags (txt m) s [(txt fm, fs)]
  | SNone => Ret tt
  | SPanic w => Panic w
  end.
(** src/insert_replace.rs:325-381: what follows the column list. *)
Definition parse_insert_source (r : recs) (columns : list ident)
  : prog (option (select expr stmt) * option (span * list (list expr)) * option (set_pairs expr)) :=
  t <- token ;;
  if is_kw t "SELECT" then s <- parse_select r ;; Ret (Some s, None, None)
  else if is_kw t "VALUE" || is_kw t "VALUES" then
    values_span <- consume ;;
    l <- sep_list (r_n r) (consume_token TLParen ;;;
                           vals <- sep_list_recovered (r_n r) ")" (r_expr r false) ;;
                           consume_token TRParen ;;;
                           Ret vals) ;;
    Ret (None, Some (values_span, l), None)
  else if is_kw t "SET" then
    set_span <- consume_keyword "SET" ;;
    pairs <- sep_list (r_n r) (parse_set_pair r) ;;
    err_at_frag "Columns may not be used here" (spn columns) "Together with SET" set_span ;;;
    Ret (None, None, Some (mkSetPairs set_span pairs))
  else expected_error "VALUE, VALUES, SELECT or SET" ;;; Ret (None, None, None).

(** src/insert_replace.rs:426-447: the conflict target. *)
Definition parse_conflict_target (n : nat) : prog on_conflict_target :=
  t <- token ;;
  if tok_eqb t TLParen then
    consume_token TLParen ;;;
    names <- sep_list n consume_plain_identifier ;;
    consume_token TRParen ;;;
    Ret (OCTColumns names)
  else if is_kw t "ON" then
    s <- consume_keywords ["ON"; "CONSTRAINT"] ;;
    i <- consume_plain_identifier ;;
    Ret (OCTConstraint s i)
  else Ret OCTNone.
(** src/insert_replace.rs:450-484: the conflict action. *)
Definition parse_conflict_action (r : recs) : prog (on_conflict_action expr) :=
  do_ <- consume_keyword "DO" ;;
  t <- token ;;
  if is_kw t "NOTHING" then
    s <- consume_keyword "NOTHING" ;; Ret (OCANothing (join do_ s))
  else if is_kw t "UPDATE" then
    s <- consume_keywords ["UPDATE"; "SET"] ;;
    sets <- sep_list (r_n r) (i <- consume_plain_identifier ;;
                              consume_token TEq ;;;
                              e <- r_expr r false ;;
                              Ret (i, e)) ;;
    t <- token ;;
    where_ <- (if is_kw t "WHERE" then
                 w <- consume_keyword "WHERE" ;; e <- r_expr r false ;; Ret (Some (w, e))
               else Ret None) ;;
    Ret (OCAUpdate (join do_ s) sets where_)
  else expected_failure "'NOTHING' or 'UPDATE'".
(** src/insert_replace.rs:383-502: ON DUPLICATE KEY UPDATE / ON CONFLICT. *)
Definition parse_insert_on (r : recs) : prog (option (set_pairs expr) * option (on_conflict expr)) :=
  t <- token ;;
  if is_kw t "ON" then
    on <- consume_keyword "ON" ;;
    t <- token ;;
    if is_kw t "DUPLICATE" then
      s <- consume_keywords ["DUPLICATE"; "KEY"; "UPDATE"] ;;
      let sp := join on s in
      pairs <- sep_list (r_n r) (parse_set_pair r) ;;
      d <- dialect_ ;;
      (if is_maria d then Ret tt
       else err_at "Only support by mariadb" (jn (spn sp) (spn pairs))) ;;;
      Ret (Some (mkSetPairs sp pairs), None)
    else if is_kw t "CONFLICT" then
      s <- consume_keyword "CONFLICT" ;;
      target <- parse_conflict_target (r_n r) ;;
      action <- parse_conflict_action r ;;
      let v := mkOnConflict (join on s) target action in
      d <- dialect_ ;;
      (if is_postgresql d then Ret tt else err_at "Only support by postgesql" (spn v)) ;;;
      Ret (None, Some v)
    else expected_failure "'DUPLICATE' OR 'CONFLICT'"
  else Ret (None, None).
(** src/insert_replace.rs:260-530 [parse_insert_replace]. *)
Definition parse_insert_replace (r : recs) : prog (insert_replace expr stmt) :=
  t <- token ;;
  ty <- (if is_kw t "INSERT" then s <- consume ;; Ret (mkTag "Insert" s)
         else if is_kw t "REPLACE" then s <- consume ;; Ret (mkTag "Replace" s)
         else expected_failure "INSERT or REPLACE") ;;
  let insert := String.eqb (tag ty) "Insert" in
  flags <- parse_flags (r_n r) insert_flags ;;
  check_insert_flags insert flags ;;;
  into_span <- skip_keyword "INTO" ;;
  table <- parse_qualified_name (r_n r) ;;
  p <- skip_token TLParen ;;
  columns <- match p with
             | Some _ =>
                 l <- sep_list_recovered (r_n r) ")" consume_plain_identifier ;;
                 consume_token TRParen ;;;
                 Ret l
             | None => Ret []
             end ;;
  '(select, values, set) <- parse_insert_source r columns ;;
  '(dup, conflict) <- parse_insert_on r ;;
  returning <- parse_returning r ;;
  Ret (mkInsertReplace ty flags into_span table columns values select set dup conflict returning).
