(** Model of src/select.rs and of the compound queries of src/statement.rs. *)
From Verif Require Export DataType.

(** src/select.rs:41-51 [parse_select_expr]. *)
Definition parse_select_expr (r : recs) : prog (select_expr expr) :=
  e <- r_expr r false ;;
  a <- skip_keyword "AS" ;;
  as_ <- match a with
         | Some _ => i <- consume_plain_identifier ;; Ret (Some i)
         | None => Ret None
         end ;;
  Ret (mkSelectExpr e as_).

(** [matches!(&parser.token, Token::Ident(_, k) if !k.reserved())] *)
Definition is_unreserved (t : tok) : bool :=
  match t with TIdent _ k => negb (kw_reserved k) | _ => false end.

(** src/select.rs:251-258 and 269-276: optional [AS] and alias. *)
Definition parse_alias : prog (option span * option ident) :=
  a <- skip_keyword "AS" ;;
  t <- token ;;
  if is_some a || is_unreserved t then
    i <- consume_plain_identifier ;; Ret (a, Some i)
  else Ret (a, None).

(** src/select.rs:280-285: [IndexHintUse]. *)
Definition hint_uses : list (string * string) :=
  [("USE", "Use"); ("IGNORE", "Ignore"); ("FORCE", "Force")].
(** src/select.rs:286-290: [IndexHintType]. *)
Definition hint_types : list (string * string) := [("INDEX", "Index"); ("KEY", "Key")].

(** src/select.rs:279-331: one index hint; [None]: [break]. *)
Definition parse_index_hint (n : nat) : prog (option index_hint) :=
  t <- token ;;
  match kw_assoc hint_uses t with
  | None => Ret None
  | Some (_, c) =>
      s <- consume ;;
      let use := mkTag c s in
      t <- token ;;
      ty <- match kw_assoc hint_types t with
            | Some (_, c) => s <- consume ;; Ret (mkTag c s)
            | None => expected_failure "'INDEX' or 'KEY'"
            end ;;
      f <- skip_keyword "FOR" ;;
      for_ <- match f with
              | Some for_span =>
                  t <- token ;;
                  v <- (if is_kw t "JOIN" then s <- consume ;; Ret (mkTag "Join" s)
                        else if is_kw t "GROUP" then
                          s <- consume_keywords ["GROUP"; "BY"] ;; Ret (mkTag "GroupBy" s)
                        else if is_kw t "ORDER" then
                          s <- consume_keywords ["ORDER"; "BY"] ;; Ret (mkTag "OrderBy" s)
                        else expected_failure "'JOIN', 'GROUP BY' or 'ORDER BY'") ;;
                  Ret (Some (for_span, v))
              | None => Ret None
              end ;;
      lparen <- consume_token TLParen ;;
      l <- recovered_list2 n consume_plain_identifier ;;
      rparen <- consume_token TRParen ;;
      Ret (Some (mkIndexHint use ty for_ lparen l rparen))
  end.

(** [parser.err(m, &v)] / [&v.opt_span().unwrap()] for a value [v] of the AST: the
    span is computed, which may panic. *)
Definition err_at (m : string) (s : sres) : prog unit :=
  match s with
  | SSome s => err m s
  | SNone => Panic PUnwrap
  | SPanic w => Panic w
  end.

(** src/select.rs:238-349 [parse_table_reference_inner]. *)
Definition parse_table_reference_inner (r : recs) : prog (tref expr stmt) :=
  t <- token ;;
  if is_kw t "SELECT" || tok_eqb t TLParen then
    q <- r_compound r ;;
    '(as_span, as_) <- parse_alias ;;
    Ret (TRQuery q as_span as_)
  else match t with
  | TIdent _ _ =>
      q <- parse_qualified_name (r_n r) ;;
      '(as_span, as_) <- parse_alias ;;
      hints <- loop (r_n r) (fun l : list index_hint =>
                 h <- parse_index_hint (r_n r) ;;
                 match h with Some h => Ret (inl (l ++ [h])) | None => Ret (inr l) end) [] ;;
      d <- dialect_ ;;
      (match hints with
       | [] => Ret tt
       | _ => if is_maria d then Ret tt
              else err_at "Index hints only supported by MariaDb" (spn hints)
       end) ;;;
      Ret (TRTable q as_span as_ hints)
  | _ => expected_failure "subquery or identifier"
  end.

(** src/select.rs:373-383, 384-395 and twice in 396-435: an outer join after
    [LEFT] / [RIGHT] (keyword [k]) up to [JOIN]. *)
Definition parse_outer_join (k : string) : prog span :=
  l <- consume_keyword k ;;
  o <- skip_keyword "OUTER" ;;
  match o with
  | Some outer => j <- consume_keyword "JOIN" ;; Ret (join (join l outer) j)
  | None => j <- consume_keyword "JOIN" ;; Ret (join l j)
  end.

(** src/select.rs:356-437: the kind of join; [None]: [break]. *)
Definition parse_join_type : prog (option tagged) :=
  t <- token ;;
  if is_kw t "INNER" then
    a <- consume_keyword "INNER" ;; b <- consume_keyword "JOIN" ;; Ret (Some (mkTag "JoinType::Inner" (join a b)))
  else if is_kw t "CROSS" then
    a <- consume_keyword "CROSS" ;; b <- consume_keyword "JOIN" ;; Ret (Some (mkTag "JoinType::Cross" (join a b)))
  else if is_kw t "JOIN" then
    a <- consume_keyword "JOIN" ;; Ret (Some (mkTag "JoinType::Normal" a))
  else if is_kw t "STRAIGHT_JOIN" then
    a <- consume_keyword "STRAIGHT_JOIN" ;; Ret (Some (mkTag "JoinType::Straight" a))
  else if is_kw t "LEFT" then s <- parse_outer_join "LEFT" ;; Ret (Some (mkTag "JoinType::Left" s))
  else if is_kw t "RIGHT" then s <- parse_outer_join "RIGHT" ;; Ret (Some (mkTag "JoinType::Right" s))
  else if is_kw t "NATURAL" then
    natural <- consume_keyword "NATURAL" ;;
    t <- token ;;
    if is_kw t "INNER" then
      s <- consume_keywords ["INNER"; "JOIN"] ;; Ret (Some (mkTag "JoinType::NaturalInner" (join natural s)))
    else if is_kw t "LEFT" then s <- parse_outer_join "LEFT" ;; Ret (Some (mkTag "JoinType::NaturalLeft" s))
    else if is_kw t "RIGHT" then s <- parse_outer_join "RIGHT" ;; Ret (Some (mkTag "JoinType::NaturalRight" s))
    else if is_kw t "JOIN" then
      s <- consume_keyword "JOIN" ;; Ret (Some (mkTag "JoinType::Natural" (join natural s)))
    else expected_failure "'INNER', 'LEFT', 'RIGHT' or 'JOIN'"
  else Ret None.

(** src/select.rs:441-459: the join condition. *)
Definition parse_join_spec (r : recs) : prog (option (join_spec expr)) :=
  t <- token ;;
  if is_kw t "ON" then
    on <- consume_keyword "ON" ;;
    e <- r_expr r false ;;
    Ret (Some (JOn e on))
  else if is_kw t "USING" then
    us <- consume_keyword "USING" ;;
    l <- sep_list (r_n r) consume_plain_identifier ;;
    Ret (Some (JUsing l us))
  else Ret None.

(** src/select.rs:351-469 [parse_table_reference]. *)
Definition parse_table_reference (r : recs) : prog (tref expr stmt) :=
  a <- parse_table_reference_inner r ;;
  loop (r_n r) (fun ans : tref expr stmt =>
    j <- parse_join_type ;;
    match j with
    | None => Ret (inr ans)
    | Some j =>
        right <- parse_table_reference_inner r ;;
        spec <- parse_join_spec r ;;
        Ret (inl (TRJoin j ans right spec))
    end) a.

(** [loop { match &parser.token { Ident(_, K) => flags.push(Flag::C(consume_keyword(K)?)), .., _ => break } }] *)
Definition parse_flags (n : nat) (tbl : list (string * string)) : prog (list tagged) :=
  loop n (fun l : list tagged =>
    t <- token ;;
    match kw_assoc tbl t with
    | Some (k, c) => s <- consume_keyword k ;; Ret (inl (l ++ [mkTag c s]))
    | None => Ret (inr l)
    end) [].

(** src/select.rs:473-501 [SelectFlag]. *)
Definition select_flags : list (string * string) := [
  ("ALL", "All"); ("DISTINCT", "Distinct"); ("DISTINCTROW", "DistinctRow");
  ("HIGH_PRIORITY", "HighPriority"); ("STRAIGHT_JOIN", "StraightJoin");
  ("SQL_SMALL_RESULT", "SqlSmallResult"); ("SQL_BIG_RESULT", "SqlBigResult");
  ("SQL_BUFFER_RESULT", "SqlBufferResult"); ("SQL_NO_CACHE", "SqlNoCache");
  ("SQL_CALC_FOUND_ROWS", "SqlCalcFoundRows") ].

(** [if let Some(span) = skip_keyword(K) { Some((parse_expression(parser, false)?, span)) } else { None }] *)
Definition opt_where (r : recs) (k : string) : prog (option (expr * span)) :=
  s <- skip_keyword k ;;
  match s with
  | Some s => e <- r_expr r false ;; Ret (Some (e, s))
  | None => Ret None
  end.

(** The elements of an ORDER BY list: src/select.rs:771-782, src/statement.rs:798-809,
    src/expression.rs:918-929. *)
Definition parse_order_elements (r : recs) : prog (list (expr * order_flag)) :=
  sep_list (r_n r)
    (e <- r_expr r false ;;
     t <- token ;;
     f <- (if is_kw t "ASC" then s <- consume ;; Ret (OAsc s)
           else if is_kw t "DESC" then s <- consume ;; Ret (ODesc s)
           else Ret ONone) ;;
     Ret (e, f)).
(** src/select.rs:768-786, src/statement.rs:795-813. *)
Definition parse_order_by (r : recs) : prog (option (order_list expr)) :=
  s <- skip_keyword "ORDER" ;;
  match s with
  | None => Ret None
  | Some s =>
      b <- consume_keyword "BY" ;;
      l <- parse_order_elements r ;;
      Ret (Some (join b s, l))
  end.
(** src/select.rs:788-803, src/statement.rs:815-831. *)
Definition parse_limit (r : recs) : prog (option (limit expr)) :=
  s <- skip_keyword "LIMIT" ;;
  match s with
  | None => Ret None
  | Some span =>
      n <- r_expr r true ;;
      t <- token ;;
      if tok_eqb t TComma then
        consume ;;; e <- r_expr r true ;; Ret (Some (span, Some n, e))
      else if is_kw t "OFFSET" then
        consume ;;; e <- r_expr r true ;; Ret (Some (span, Some e, n))
      else Ret (Some (span, None, n))
  end.

(** src/select.rs:805-860: the locking clause. *)
Definition parse_locking (r : recs) : prog (option locking) :=
  f <- skip_keyword "FOR" ;;
  match f with
  | None => Ret None
  | Some for_span =>
      t <- token ;;
      strength <-
        (if is_kw t "UPDATE" then s <- consume_keyword "UPDATE" ;; Ret (mkTag "Update" s)
         else if is_kw t "SHARE" then s <- consume_keyword "SHARE" ;; Ret (mkTag "Share" s)
         else if is_kw t "NO" then
           s <- consume_keywords ["NO"; "KEY"; "UPDATE"] ;; Ret (mkTag "NoKeyUpdate" s)
         else if is_kw t "KEY" then
           s <- consume_keywords ["KEY"; "SHARE"] ;; Ret (mkTag "KeyShare" s)
         else expected_failure "UPDATE, SHARE, NO KEY UPDATE or KEY SHARE here") ;;
      d <- dialect_ ;;
      (if (String.eqb (tag strength) "NoKeyUpdate" || String.eqb (tag strength) "KeyShare")
          && negb (is_postgresql d)
       then err "Only support by PostgreSQL" (tag_span strength) else Ret tt) ;;;
      o <- skip_keyword "OF" ;;
      of <- match o with
            | Some of_span =>
                l <- sep_list (r_n r) consume_plain_identifier ;; Ret (Some (of_span, l))
            | None => Ret None
            end ;;
      t <- token ;;
      wait <- (if is_kw t "NOWAIT" then s <- consume_keyword "NOWAIT" ;; Ret (LWNoWait s)
               else if is_kw t "SKIP" then
                 s <- consume_keywords ["SKIP"; "LOCKED"] ;; Ret (LWSkipLocked s)
               else Ret LWDefault) ;;
      Ret (Some (mkLocking for_span strength of wait))
  end.

(** src/select.rs:657-889 [parse_select]. *)
Definition parse_select (r : recs) : prog (select expr stmt) :=
  select_span <- consume_keyword "SELECT" ;;
  flags <- parse_flags (r_n r) select_flags ;;
  exprs <- sep_list (r_n r) (parse_select_expr r) ;;
  f <- skip_keyword "FROM" ;;
  match f with
  | None => Ret (mkSelect select_span flags exprs None None None None None None None None None)
  | Some from_span =>
      trs <- sep_list (r_n r) (parse_table_reference r) ;;
      where_ <- opt_where r "WHERE" ;;
      g <- skip_keyword "GROUP" ;;
      group_by <- match g with
                  | Some group_span =>
                      b <- consume_keyword "BY" ;;
                      l <- sep_list (r_n r) (r_expr r false) ;;
                      Ret (Some (join b group_span, l))
                  | None => Ret None
                  end ;;
      having <- opt_where r "HAVING" ;;
      window <- skip_keyword "WINDOW" ;;
      order_by <- parse_order_by r ;;
      lim <- parse_limit r ;;
      lock <- parse_locking r ;;
      Ret (mkSelect select_span flags exprs (Some from_span) (Some trs) where_ group_by having
             window order_by lim lock)
  end.

(** src/statement.rs:664-679 [parse_compound_query_bottom]. *)
Definition parse_compound_query_bottom (r : recs) : prog stmt :=
  t <- token ;;
  if tok_eqb t TLParen then
    lp <- consume_token TLParen ;;
    s <- recovered None "')'" is_rparen (q <- r_compound r ;; Ret (Some q)) ;;
    consume_token TRParen ;;;
    Ret match s with Some s => s | None => SInvalid (mkInvalid lp) end
  else if is_kw t "SELECT" then s <- parse_select r ;; Ret (SSelect s)
  else expected_failure "'SELECET' or '('".

(** src/statement.rs:775-793: the branches after the first one. *)
Definition parse_unions (r : recs) : prog (list (union_with stmt)) :=
  loop (r_n r) (fun l : list (union_with stmt) =>
    union_span <- consume_keyword "UNION" ;;
    t <- token ;;
    ty <- (if is_kw t "ALL" then s <- consume_keyword "ALL" ;; Ret (UTAll s)
           else if is_kw t "DISTINCT" then s <- consume_keyword "DISTINCT" ;; Ret (UTDistinct s)
           else Ret UTDefault) ;;
    s <- parse_compound_query_bottom r ;;
    let l := l ++ [mkUnionWith union_span ty s] in
    t <- token ;;
    if is_kw t "UNION" then Ret (inl l) else Ret (inr l)) [].

(** src/statement.rs:767-838 [parse_compound_query]. *)
Definition parse_compound_query (r : recs) : prog stmt :=
  q <- parse_compound_query_bottom r ;;
  t <- token ;;
  if negb (is_kw t "UNION") then Ret q
  else
    with_ <- parse_unions r ;;
    order_by <- parse_order_by r ;;
    lim <- parse_limit r ;;
    Ret (SUnion (mkUnion q with_ order_by lim)).
