(** Model of src/expression.rs: the operator-precedence reducer and the parser of
    expressions. *)
From Verif Require Export Select FuncTable.

(** ** The reducer *)
(** src/expression.rs:951-979 [impl Priority for BinaryOperator]. *)
Definition bin_priority (o : binop) : N :=
  match o with
  | Or => 140 | Xor => 150 | And => 160
  | Eq_ | NullSafeEq | GtEq | Gt_ | LtEq | Lt_ | Neq | Like | NotLike => 110
  | ShiftLeft | ShiftRight => 80
  | BitAnd => 90 | BitOr => 100 | BitXor => 50
  | Add | Subtract => 70
  | Divide | Div | Mod | Mult => 60
  end%N.
(** src/expression.rs:981-991 [impl Priority for UnaryOperator]. *)
Definition un_priority (o : unop) : N :=
  match o with UBinary => 20 | UCollate => 20 | ULogicalNot => 30 | UMinus => 40 | UNot => 130 end%N.
(** src/expression.rs:945 [IN_PRIORITY]. *)
Definition in_priority : N := 110%N.

(** src/expression.rs:994-998 [ReduceMember]; 1000-1002 [Reducer]: the stack, top first. *)
Inductive member := MExpr (e : expr) | MBin (o : binop) (s : span) | MUn (o : unop) (s : span).
Definition stack := list member.
#[export] Instance Atoms_member : Atoms member := fun m =>
  match m with
  | MExpr e => atoms e
  | MBin o s => [ALeaf (LBin o) s] ++ (atoms o ++ atoms s)
  | MUn o s => [ALeaf (LUn o) s] ++ (atoms o ++ atoms s)
  end.

(** [Result<(), &'static str>] together with the mutated reducer. *)
Inductive rres := RedOk (s : stack) | RedErr (m : string).

(** src/expression.rs:1012-1045: the loop of [Reducer::reduce], with the current
    expression [e]. *)
Fixpoint reduce_loop (prio : N) (e : expr) (stk : stack) : rres :=
  match stk with
  | [] => RedOk [MExpr e]
  | MExpr _ :: _ => RedErr "ICE Reduce stack error 1"
  | MUn o s :: r => if N.ltb prio (un_priority o) then RedOk (MExpr e :: stk)
                    else reduce_loop prio (EUnary o s e) r
  | MBin o s :: r => if N.ltb prio (bin_priority o) then RedOk (MExpr e :: stk)
                     else match r with
                          | MExpr lhs :: r' => reduce_loop prio (EBinary o s lhs e) r'
                          | _ => RedErr "ICE Reduce stack error 2"
                          end
  end.
(** src/expression.rs:1005-1048 [Reducer::reduce]. *)
Definition reduce (prio : N) (stk : stack) : rres :=
  match stk with
  | MExpr e :: r => reduce_loop prio e r
  | _ => RedErr "Expected expression before here"
  end.
(** [matches!(self.stack.last(), Some(ReduceMember::Expression(_)))] *)
Definition top_expr (stk : stack) : bool := match stk with MExpr _ :: _ => true | _ => false end.
(** src/expression.rs:1050-1054 [Reducer::shift_binop]. *)
Definition shift_binop (s : span) (o : binop) (stk : stack) : rres :=
  match reduce (bin_priority o) stk with
  | RedOk stk => RedOk (MBin o s :: stk)
  | RedErr m => RedErr m
  end.
(** src/expression.rs:1056-1062 [Reducer::shift_unary]. *)
Definition shift_unary (s : span) (o : unop) (stk : stack) : rres :=
  if top_expr stk then RedErr "Unary operator cannot come before expression"
  else RedOk (MUn o s :: stk).
(** src/expression.rs:1064-1071 [Reducer::shift_expr]. *)
Definition shift_expr (e : expr) (stk : stack) : rres :=
  if top_expr stk then RedErr "Expression should not follow expression"
  else RedOk (MExpr e :: stk).

(** ** Functions *)
(** src/expression.rs:374-398 [parse_time_unit]. *)
Definition parse_time_unit (t : tok) : option time_unit := option_map snd (kw_assoc time_unit_table t).

(** src/expression.rs:1625-1635 [parse_expression_outer]. *)
Definition parse_expression_outer (r : recs) : prog expr :=
  t <- token ;;
  if is_kw t "SELECT" then s <- parse_select r ;; Ret (ESubquery (SSelect s))
  else r_expr r false.

(** src/expression.rs:1637-1647 [parse_expression_paren]. *)
Definition parse_expression_paren (r : recs) : prog expr :=
  t <- token ;;
  if is_kw t "SELECT" then s <- r_compound r ;; Ret (ESubquery s)
  else r_expr r false.

(** src/expression.rs:678-893: which function a name denotes. *)
Definition function_of (t : tok) (sp : span) : prog func :=
  match kw_assoc function_table t with
  | Some (_, f) => Ret (FName f)
  | None =>
      match t with
      | TIdent v k => if negb (kw_reserved k) then Ret (FOther v)
                      else err "Unknown function" sp ;;; Ret (FName "Unknown")
      | _ => err "Unknown function" sp ;;; Ret (FName "Unknown")
      end
  end.

(** src/expression.rs:672-942 [parse_function]. *)
Definition parse_function (r : recs) (t : tok) (sp : span) : prog expr :=
  consume_token TLParen ;;;
  f <- function_of t sp ;;
  t1 <- token ;;
  args <- (if negb (tok_eqb t1 TRParen) then recovered_list (r_n r) (parse_expression_outer r)
           else Ret []) ;;
  consume_token TRParen ;;;
  o <- skip_keyword "OVER" ;;
  match o with
  | Some over_span =>
      consume_token TLParen ;;;
      order_span <- consume_keywords ["ORDER"; "BY"] ;;
      l <- parse_order_elements r ;;
      consume_token TRParen ;;;
      Ret (EWindowFunction f args sp over_span (order_span, l))
  | None => Ret (EFunction f args sp)
  end.

(** ** The branches of the main loop.  Each returns the updated reducer or the
    message to be reported. *)
(** [if let Err(e) = r.reduce(p) { parser.err_here(e)? }; let lhs = match r.stack.pop() {..}]. *)
Definition pop_lhs (stk : stack) (msg : string) : prog (expr * stack) :=
  match reduce in_priority stk with
  | RedErr m => err_here m
  | RedOk (MExpr e :: stk') => Ret (e, stk')
  | RedOk _ => err_here msg
  end.

(** src/expression.rs:1135-1148 and 1213-1228: [( expr, .. )] after IN. *)
Definition parse_in_list (r : recs) : prog (list expr) :=
  consume_token TLParen ;;;
  l <- recovered_list (r_n r) (parse_expression_paren r) ;;
  consume_token TRParen ;;;
  Ret l.

(** src/expression.rs:1124-1155: IN. *)
Definition step_in (r : recs) (stk : stack) : prog rres :=
  '(lhs, stk) <- pop_lhs stk "Expected expression before here 3" ;;
  op <- consume_keyword "IN" ;;
  rhs <- parse_in_list r ;;
  Ret (shift_expr (EIn lhs rhs op false) stk).

(** src/expression.rs:1156-1193: IS. *)
Definition is_not_kinds : list (string * is_) :=
  [("TRUE", IsNotTrue); ("FALSE", IsNotFalse); ("NULL", IsNotNull); ("UNKNOWN", IsNotUnknown)].
Definition is_kinds : list (string * is_) :=
  [("TRUE", IsTrue); ("FALSE", IsFalse); ("NULL", IsNull); ("UNKNOWN", IsUnknown)].
Definition step_is (stk : stack) : prog rres :=
  '(lhs, stk) <- pop_lhs stk "Expected expression before here 4" ;;
  op <- consume_keyword "IS" ;;
  t <- token ;;
  '(k, op) <-
    (if is_kw t "NOT" then
       consume ;;;
       t <- token ;;
       match kw_assoc is_not_kinds t with
       | Some (_, k) => s <- consume ;; Ret (k, join s op)
       | None => expected_failure "'TRUE', 'FALSE', 'UNKNOWN' or 'NULL'"
       end
     else match kw_assoc is_kinds t with
          | Some (_, k) => s <- consume ;; Ret (k, join s op)
          | None => expected_failure "'NOT', 'TRUE', 'FALSE', 'UNKNOWN' or 'NULL'"
          end) ;;
  Ret (shift_expr (EIs lhs k op) stk).

(** src/expression.rs:1199-1242: NOT IN / NOT LIKE. *)
Definition step_not (r : recs) (stk : stack) : prog rres :=
  '(lhs, stk) <- pop_lhs stk "Expected expression before here 2" ;;
  op <- consume_keyword "NOT" ;;
  t <- token ;;
  if is_kw t "IN" then
    i <- consume_keyword "IN" ;;
    rhs <- parse_in_list r ;;
    Ret (shift_expr (EIn lhs rhs (join i op) true) stk)
  else if is_kw t "LIKE" then
    s <- consume ;;
    Ret (shift_binop (join s op) NotLike (MExpr lhs :: stk))
  else expected_failure "'IN' or 'LIKE'".

(** src/expression.rs:1251: [str::split] on a set of characters. *)
Definition is_interval_sep (c : N) : bool :=
  (c =? 58)%N || (c =? 33)%N || (c =? 44)%N || (c =? 46)%N || (c =? 45)%N || (c =? 32)%N.
Fixpoint split_on (p : N -> bool) (t : text) : list text :=
  match t with
  | [] => [[]]
  | c :: r => if p c then [] :: split_on p r
              else match split_on p r with
                   | [] => [[c]]
                   | x :: l => (c :: x) :: l
                   end
  end.
Definition i64_max : N := (2 ^ 63 - 1)%N.
(** [i64::from_str] on a part (a part contains no minus sign): an optional plus
    sign and at least one digit, at most [i64::MAX]. *)
Definition parse_i64 (t : text) : option N :=
  let ds := match t with c :: r => if (c =? 43)%N then r else t | [] => t end in
  match ds with
  | [] => None
  | _ => if forallb is_digit ds then
           if (digits_value ds <=? i64_max)%N then Some (digits_value ds) else None
         else None
  end.
(** src/expression.rs:1251-1258: the loop over the parts. *)
Fixpoint interval_parts (s : span) (parts : list text) : prog (list N) :=
  match parts with
  | [] => Ret []
  | p :: ps =>
      match parse_i64 p with
      | None => err "Expected . separated integers in a string" s ;;; interval_parts s ps
      | Some v => l <- interval_parts s ps ;; Ret (v :: l)
      end
  end.

(** [let Some(u) = parse_time_unit(&parser.token) else { err_here("Expected time unit")? }; (u, parser.consume())] *)
Definition consume_time_unit : prog (time_unit * span) :=
  t <- token ;;
  match parse_time_unit t with
  | Some u => s <- consume ;; Ret (u, s)
  | None => err_here "Expected time unit"
  end.

(** src/expression.rs:1246-1277: INTERVAL. *)
Definition step_interval (r : recs) (stk : stack) : prog rres :=
  interval_span <- consume ;;
  t <- token ;;
  ti <- match t with
        | TSingleQuotedString _ | TDoubleQuotedString _ =>
            v <- consume_string (r_n r) ;;
            l <- interval_parts (ss_span v) (split_on is_interval_sep (ss_value v)) ;;
            Ret (l, ss_span v)
        | TInteger _ => '(v, s) <- consume_int i64_max ;; Ret ([v], s)
        | _ => err_here "Expected integer or string"
        end ;;
  u <- consume_time_unit ;;
  Ret (shift_expr (EInterval interval_span ti u) stk).

(** src/expression.rs:1278-1329: TIMESTAMPADD, TIMESTAMPDIFF; [c] builds the node. *)
Definition step_timestamp (r : recs) (c : span -> time_unit * span -> expr -> expr -> expr)
    (stk : stack) : prog rres :=
  s <- consume ;;
  consume_token TLParen ;;;
  parts <- recovered None "')'" is_rparen
             (u <- consume_time_unit ;;
              consume_token TComma ;;;
              e1 <- parse_expression_outer r ;;
              consume_token TComma ;;;
              e2 <- parse_expression_outer r ;;
              Ret (Some (u, e1, e2))) ;;
  consume_token TRParen ;;;
  Ret match parts with
      | Some (u, e1, e2) => shift_expr (c s u e1 e2) stk
      | None => shift_expr (EInvalid (mkInvalid s)) stk
      end.

(** src/expression.rs:1368-1388: CAST. *)
Definition step_cast (r : recs) (stk : stack) : prog rres :=
  s <- consume_keyword "CAST" ;;
  consume_token TLParen ;;;
  parts <- recovered None "')'" is_rparen
             (e <- parse_expression_outer r ;;
              a <- consume_keyword "AS" ;;
              ty <- parse_data_type r false ;;
              Ret (Some (e, a, ty))) ;;
  consume_token TRParen ;;;
  Ret match parts with
      | Some (e, a, ty) => shift_expr (ECast s e a ty) stk
      | None => shift_expr (EInvalid (mkInvalid s)) stk
      end.

(** src/expression.rs:1389-1407 and 1408-1433: COUNT, GROUP_CONCAT; [c] builds the node. *)
Definition step_aggregate (r : recs) (k : string) (c : span -> option span -> expr -> expr)
    (stk : stack) : prog rres :=
  s <- consume_keyword k ;;
  consume_token TLParen ;;;
  d <- skip_keyword "DISTINCT" ;;
  e <- recovered None "')'" is_rparen (e <- parse_expression_outer r ;; Ret (Some e)) ;;
  consume_token TRParen ;;;
  Ret match e with
      | Some e => shift_expr (c s d e) stk
      | None => shift_expr (EInvalid (mkInvalid s)) stk
      end.

(** src/expression.rs:1434-1457: EXTRACT. *)
Definition step_extract (r : recs) (stk : stack) : prog rres :=
  s <- consume_keyword "EXTRACT" ;;
  consume_token TLParen ;;;
  parts <- recovered None "')'" is_rparen
             (u <- consume_time_unit ;;
              f <- consume_keyword "FROM" ;;
              e <- parse_expression_outer r ;;
              Ret (Some (u, f, e))) ;;
  consume_token TRParen ;;;
  Ret match parts with
      | Some (u, f, e) => shift_expr (EExtract s u f e) stk
      | None => shift_expr (EInvalid (mkInvalid s)) stk
      end.

(** src/expression.rs:1471-1484: functions written without parentheses. *)
Definition bare_functions : list (string * string) := [
  ("CURRENT_TIMESTAMP", "CurrentTimestamp"); ("LOCALTIME", "Now"); ("LOCALTIMESTAMP", "Now");
  ("UTC_TIMESTAMP", "UtcTimeStamp"); ("UTC_DATE", "UtcDate"); ("UTC_TIME", "UtcTime");
  ("CURRENT_DATE", "CurDate"); ("CURRENT_TIME", "CurTime") ].

(** src/expression.rs:1491-1502: the dotted parts after the first. *)
Definition parse_id_parts (n : nat) (first : idpart) : prog (list idpart) :=
  loop n (fun parts : list idpart =>
    p <- skip_token TPeriod ;;
    match p with
    | None => Ret (inr parts)
    | Some _ =>
        t <- token ;;
        if tok_eqb t TMul then s <- consume_token TMul ;; Ret (inl (parts ++ [PStar s]))
        else match t with
             | TIdent _ _ => i <- consume_plain_identifier ;; Ret (inl (parts ++ [PName i]))
             | _ => expected_failure "Identifier or '*'"
             end
    end) [first].

(** src/expression.rs:1464-1506: a word that may start an expression. *)
Definition step_word (r : recs) (t : tok) (stk : stack) : prog rres :=
  s <- consume ;;
  t1 <- token ;;
  if tok_eqb t1 TLParen then e <- parse_function r t s ;; Ret (shift_expr e stk)
  else match kw_assoc bare_functions t with
       | Some (_, f) => Ret (shift_expr (EFunction (FName f) [] s) stk)
       | None =>
           i <- token_to_plain_identifier t s ;;
           parts <- parse_id_parts (r_n r) (PName i) ;;
           Ret (shift_expr (EIdentifier (mkParts parts)) stk)
       end.

(** src/expression.rs:1556-1575: the closure over the WHEN branches and ELSE; what
    was pushed before a failure is kept. *)
Definition parse_whens (r : recs) : prog (list (when expr) * option (span * expr) * bool) :=
  '(whens, ok) <- loop_acc (r_n r) (fun l : list (when expr) =>
      w <- consume_keyword "WHEN" ;;
      c <- r_expr r false ;;
      th <- consume_keyword "THEN" ;;
      e <- r_expr r false ;;
      t <- token ;;
      Ret (l ++ [mkWhen w c th e], if is_kw t "WHEN" then Continue else Break)) [] ;;
  if ok : bool then
    s <- skip_keyword "ELSE" ;;
    match s with
    | Some s => Try (r_expr r false) (fun e => match e with
                                               | Some e => Ret (whens, Some (s, e), true)
                                               | None => Ret (whens, None, false)
                                               end)
    | None => Ret (whens, None, true)
    end
  else Ret (whens, None, false).

(** src/expression.rs:1543-1585: CASE. *)
Definition step_case (r : recs) (stk : stack) : prog rres :=
  case_span <- consume_keyword "CASE" ;;
  t <- token ;;
  value <- (if negb (is_kw t "WHEN") then e <- r_expr r false ;; Ret (Some e) else Ret None) ;;
  '(whens, else_) <- recovered_acc "'END'" (fun t => is_kw t "END") (parse_whens r) ;;
  end_span <- consume_keyword "END" ;;
  Ret (shift_expr (ECase case_span value whens else_ end_span) stk).

(** src/expression.rs:1586-1607: [@@GLOBAL.x], [@@SESSION.x]. *)
Definition step_variable (stk : stack) : prog rres :=
  global <- skip_token TAtAtGlobal ;;
  session <- match global with
             | None => s <- consume_token TAtAtSession ;; Ret (Some s)
             | Some _ => Ret None
             end ;;
  dot <- consume_token TPeriod ;;
  t <- token ;;
  v <- (if is_kw t "TIME_ZONE" then Ret VTimeZone
        else match t with TIdent v _ => Ret (VOther v) | _ => expected_failure "Identifier" end) ;;
  vs <- consume ;;
  Ret (shift_expr (EVariable global session (Some dot) v vs) stk).

(** Positional arguments (src/expression.rs:1354-1361, 1507-1529): the counter is
    read and incremented, then the token is consumed. *)
Definition step_arg (c : argref -> expr) (p : prog span) (stk : stack) : prog rres :=
  n <- perf OArg ;;
  s <- p ;;
  Ret (shift_expr (c (mkArg n s)) stk).

Definition bin (o : binop) (stk : stack) : prog (option rres) :=
  s <- consume ;; Ret (Some (shift_binop s o stk)).
Definition un (o : unop) (stk : stack) : prog (option rres) :=
  s <- consume ;; Ret (Some (shift_unary s o stk)).
Definition some_ {A} (p : prog A) : prog (option A) := a <- p ;; Ret (Some a).

(** The last rows of the [match] (src/expression.rs:1458-1607), for tokens that are
    not operators, literals or special functions. *)
Definition step_tail (r : recs) (t : tok) (stk : stack) : prog (option rres) :=
  a <- perf OArguments ;;
  if (match t with TIdent _ k => kw_expr_ident k | _ => false end) then some_ (step_word r t stk)
  else if tok_eqb t TQuestionMark && (match a with ArgQuestionMark => true | _ => false end) then
    some_ (step_arg EArg (consume_token TQuestionMark) stk)
  else if tok_eqb t TPercentS && (match a with ArgPercent => true | _ => false end) then
    some_ (step_arg EArg (consume_token TPercentS) stk)
  else match t, a with
  | TDollarArg n, ArgDollar =>
      s <- consume ;; Ret (Some (shift_expr (EArg (mkArg (n - 1)%N s)) stk))
  | _, _ =>
  if tok_eqb t TLParen then
    consume_token TLParen ;;;
    e <- parse_expression_paren r ;;
    consume_token TRParen ;;;
    Ret (Some (shift_expr e stk))
  else if is_kw t "EXISTS" then
    consume_keyword "EXISTS" ;;;
    consume_token TLParen ;;;
    q <- r_compound r ;;
    consume_token TRParen ;;;
    Ret (Some (shift_expr (EExists q) stk))
  else if is_kw t "CASE" then some_ (step_case r stk)
  else if tok_eqb t TAtAtGlobal || tok_eqb t TAtAtSession then some_ (step_variable stk)
  else Ret None
  end.

(** src/expression.rs:1343-1463: constants, literals and functions with a syntax of
    their own, then [step_tail]. *)
Definition step_primary (r : recs) (t : tok) (stk : stack) : prog (option rres) :=
  lh <- perf OListHack ;;
  if is_kw t "TRUE" then
    s <- consume_keyword "TRUE" ;; Ret (Some (shift_expr (EBool true s) stk))
  else if is_kw t "FALSE" then
    s <- consume_keyword "FALSE" ;; Ret (Some (shift_expr (EBool false s) stk))
  else if is_kw t "NULL" then
    s <- consume_keyword "NULL" ;; Ret (Some (shift_expr (ENull s) stk))
  else if is_kw t "_LIST_" && lh then some_ (step_arg EListHack (consume_keyword "_LIST_") stk)
  else match t with
  | TSingleQuotedString _ | TDoubleQuotedString _ =>
      v <- consume_string (r_n r) ;; Ret (Some (shift_expr (EString v) stk))
  | TInteger _ => v <- consume_int u64_max ;; Ret (Some (shift_expr (EInteger v) stk))
  | TFloat _ => v <- consume_float ;; Ret (Some (shift_expr (EFloat v) stk))
  | _ =>
  if is_kw t "CAST" then some_ (step_cast r stk)
  else if is_kw t "COUNT" then some_ (step_aggregate r "COUNT" ECount stk)
  else if is_kw t "GROUP_CONCAT" then some_ (step_aggregate r "GROUP_CONCAT" EGroupConcat stk)
  else if is_kw t "EXTRACT" then some_ (step_extract r stk)
  else if is_kw t "LEFT" then
    p <- peek ;;
    if tok_eqb p TLParen then
      s <- consume ;; e <- parse_function r t s ;; Ret (Some (shift_expr e stk))
    else step_tail r t stk
  else step_tail r t stk
  end.

(** One iteration of the loop (src/expression.rs:1080-1613); [None]: [break].
    [t] is the current token. *)
Definition expr_step (r : recs) (inner : bool) (stk : stack) : prog (option rres) :=
  t <- token ;;
  let top := top_expr stk in
  let outer := negb inner in
  if (is_kw t "OR" || tok_eqb t TDoublePipe) && outer then bin Or stk
  else if is_kw t "XOR" && outer then bin Xor stk
  else if (is_kw t "AND" || tok_eqb t TDoubleAmpersand) && outer then bin And stk
  else if tok_eqb t TEq && outer then bin Eq_ stk
  else if tok_eqb t TSpaceship && outer then bin NullSafeEq stk
  else if tok_eqb t TGtEq && outer then bin GtEq stk
  else if tok_eqb t TGt && outer then bin Gt_ stk
  else if tok_eqb t TLtEq && outer then bin LtEq stk
  else if tok_eqb t TLt && outer then bin Lt_ stk
  else if tok_eqb t TNeq && outer then bin Neq stk
  else if tok_eqb t TShiftLeft && outer then bin ShiftLeft stk
  else if tok_eqb t TShiftRight && outer then bin ShiftRight stk
  else if tok_eqb t TAmpersand then bin BitAnd stk
  else if tok_eqb t TPipe && outer then bin BitOr stk
  else if is_kw t "BINARY" && outer then un UBinary stk
  else if is_kw t "COLLATE" && outer then un UCollate stk
  else if tok_eqb t TExclamationMark && outer then un ULogicalNot stk
  else if tok_eqb t TMinus && negb top then un UMinus stk
  else if tok_eqb t TMinus && (outer && top) then bin Subtract stk
  else if is_kw t "IN" && outer then some_ (step_in r stk)
  else if is_kw t "IS" && outer then some_ (step_is stk)
  else if is_kw t "NOT" && negb top then un UNot stk
  else if is_kw t "NOT" && (outer && top) then some_ (step_not r stk)
  else if is_kw t "LIKE" && outer then bin Like stk
  else if is_kw t "INTERVAL" then some_ (step_interval r stk)
  else if is_kw t "TIMESTAMPADD" then some_ (step_timestamp r ETimestampAdd stk)
  else if is_kw t "TIMESTAMPDIFF" then some_ (step_timestamp r ETimestampDiff stk)
  else if tok_eqb t TPlus && outer then bin Add stk
  else if tok_eqb t TDiv && outer then bin Divide stk
  else if tok_eqb t TMul && negb top then
    s <- consume_token TMul ;; Ret (Some (shift_expr (EIdentifier (mkParts [PStar s])) stk))
  else if tok_eqb t TMul && (outer && top) then bin Mult stk
  else step_primary r t stk.

(** src/expression.rs:1074-1623 [parse_expression].  The second [Token::Minus] and
    [LIKE] rows of the source (1332-1335) are unreachable and omitted. *)
Definition parse_expression (r : recs) (inner : bool) : prog expr :=
  stk <- loop (r_n r) (fun stk : stack =>
           x <- expr_step r inner stk ;;
           match x with
           | None => Ret (inr stk)
           | Some (RedErr m) => err_here m
           | Some (RedOk stk) => Ret (inl stk)
           end) [] ;;
  match reduce 99999%N stk with
  | RedErr _ => err_here "Expected expression"
  | RedOk [MExpr e] => Ret e
  | RedOk [_] => ice "src/expression.rs:1621"
  | RedOk _ => ice "src/expression.rs:1617"
  end.
