(** What [parse_expression] reads and what it returns: a chain of items read from left to right,
    and the grouped tree of that chain. *)
From Verif Require Export PrecSpec RunFacts.
Local Open Scope string_scope.
Local Open Scope list_scope.

(** ** Specification: operator tokens *)
Inductive operator := OpBin (o : binop) | OpUn (o : unop) | OpIn | OpIs | OpNot.
(** Which operator a token is.  [top]: an operand has just been read, so that [-] and [*] are
    binary and NOT begins NOT IN / NOT LIKE. *)
Definition operator_of (top : bool) (t : tok) : option operator :=
  match t with
  | TDoublePipe => Some (OpBin Or) | TDoubleAmpersand => Some (OpBin And)
  | TEq => Some (OpBin Eq_) | TSpaceship => Some (OpBin NullSafeEq) | TNeq => Some (OpBin Neq)
  | TGtEq => Some (OpBin GtEq) | TGt => Some (OpBin Gt_) | TLtEq => Some (OpBin LtEq) | TLt => Some (OpBin Lt_)
  | TShiftLeft => Some (OpBin ShiftLeft) | TShiftRight => Some (OpBin ShiftRight)
  | TAmpersand => Some (OpBin BitAnd) | TPipe => Some (OpBin BitOr)
  | TPlus => Some (OpBin Ast.Add) | TDiv => Some (OpBin Divide)
  | TMinus => Some (if top then OpBin Subtract else OpUn UMinus)
  | TMul => if top then Some (OpBin Mult) else None
  | TExclamationMark => Some (OpUn ULogicalNot)
  | TIdent _ (KW k) =>
      if String.eqb k "OR" then Some (OpBin Or) else if String.eqb k "XOR" then Some (OpBin Xor)
      else if String.eqb k "AND" then Some (OpBin And) else if String.eqb k "LIKE" then Some (OpBin Like)
      else if String.eqb k "BINARY" then Some (OpUn UBinary) else if String.eqb k "COLLATE" then Some (OpUn UCollate)
      else if String.eqb k "IN" then Some OpIn else if String.eqb k "IS" then Some OpIs
      else if String.eqb k "NOT" then Some (if top then OpNot else OpUn UNot)
      else None
  | _ => None
  end.
(** Inside a restricted ("inner") expression only some operators are looked for. *)
Definition allowed (inner : bool) (o : operator) : bool :=
  negb inner || match o with OpBin BitAnd | OpUn UMinus | OpUn UNot => true | _ => false end.

(** An operand: a literal, name, function call, parenthesised expression, ... *)
Definition operand (r : recs) (t : tok) (top : bool) : prog (option expr) :=
  x <- (if is_kw t "INTERVAL" then some_ (step_interval r [])
        else if is_kw t "TIMESTAMPADD" then some_ (step_timestamp r ETimestampAdd [])
        else if is_kw t "TIMESTAMPDIFF" then some_ (step_timestamp r ETimestampDiff [])
        else if tok_eqb t TMul && negb top then
          s <- consume_token TMul ;; Ret (Some (shift_expr (EIdentifier (mkParts [PStar s])) []))
        else step_primary r t []) ;;
  Ret match x with Some (RedOk [MExpr e]) => Some e | _ => None end.
(** IS [NOT] TRUE | FALSE | NULL | UNKNOWN. *)
Definition read_is : prog post :=
  op <- consume_keyword "IS" ;;
  t <- token ;;
  if is_kw t "NOT" then
    consume ;;;
    t <- token ;;
    match kw_assoc is_not_kinds t with
    | Some (_, k) => s <- consume ;; Ret (PIs k (join s op))
    | None => expected_failure "'TRUE', 'FALSE', 'UNKNOWN' or 'NULL'"
    end
  else match kw_assoc is_kinds t with
       | Some (_, k) => s <- consume ;; Ret (PIs k (join s op))
       | None => expected_failure "'NOT', 'TRUE', 'FALSE', 'UNKNOWN' or 'NULL'"
       end.
(** One item of the chain; [None]: the expression ends here. *)
Definition read_item (r : recs) (inner top : bool) : prog (option item) :=
  t <- token ;;
  match operator_of top t with
  | Some o =>
      if allowed inner o then
        match o with
        | OpBin o => s <- consume ;; Ret (Some (IBin o s))
        | OpUn o => s <- consume ;; Ret (Some (IUn o s))
        | OpIn => op <- consume_keyword "IN" ;; rhs <- parse_in_list r ;; Ret (Some (IPost (PIn rhs op false)))
        | OpIs => p <- read_is ;; Ret (Some (IPost p))
        | OpNot =>
            op <- consume_keyword "NOT" ;;
            t <- token ;;
            if is_kw t "IN" then
              i <- consume_keyword "IN" ;; rhs <- parse_in_list r ;; Ret (Some (IPost (PIn rhs (join i op) true)))
            else if is_kw t "LIKE" then s <- consume ;; Ret (Some (IBin NotLike (join s op)))
            else expected_failure "'IN' or 'LIKE'"
        end
      else e <- operand r t top ;; Ret (option_map IExp e)
  | None => e <- operand r t top ;; Ret (option_map IExp e)
  end.
(** Whether an operand has just been read. *)
Definition closes (i : item) : bool := match i with IExp _ | IPost _ => true | _ => false end.
(** The items read from state [st] up to [st'], where the expression ends. *)
Inductive reads (r : recs) (inner : bool) : bool -> pst -> list item -> pst -> Prop :=
| rd_end top st st' : run (read_item r inner top) st = ROk None st' -> reads r inner top st [] st'
| rd_item top st i st1 l st' : run (read_item r inner top) st = ROk (Some i) st1 ->
    reads r inner (closes i) st1 l st' -> reads r inner top st (i :: l) st'.

(** ** Operands do not depend on the stack *)
(** An operand parser returns one operand (or nothing) and shifts it. *)
Definition one (x : rres) : Prop := exists e, x = RedOk [MExpr e].
Definition oneo (x : option rres) : Prop := match x with None => True | Some x => one x end.
Definition same_shift {X} (f : stack -> prog X) (sh : (stack -> X -> X) * (X -> Prop)) : Prop := forall stk st,
  match run (f []) st with
  | ROk x st1 => snd sh x /\ run (f stk) st = ROk (fst sh stk x) st1
  | RErr st1 => run (f stk) st = RErr st1
  | RPanic w => run (f stk) st = RPanic w
  | RFuel => run (f stk) st = RFuel
  end.
Definition shift1 (stk : stack) (x : rres) : rres := match x with RedOk [MExpr e] => shift_expr e stk | _ => x end.
Definition shifted := (shift1, one).
Definition shiftedo := (fun stk => option_map (shift1 stk), oneo).
Lemma ss_bind A X sh (p : prog A) (k : A -> stack -> prog X) :
  (forall a, same_shift (k a) sh) -> same_shift (fun stk => bind p (fun a => k a stk)) sh.
Proof. intros H stk st. rewrite !run_bind. destruct (run p st); auto. apply H. Qed.
Lemma ss_ret e : same_shift (fun stk => Ret (shift_expr e stk)) shifted.
Proof. intros stk st. split; [now exists e|reflexivity]. Qed.
Lemma ss_reto e : same_shift (fun stk => Ret (Some (shift_expr e stk))) shiftedo.
Proof. intros stk st. split; [now exists e|reflexivity]. Qed.
Lemma ss_none : same_shift (fun _ => Ret None) shiftedo.
Proof. intros stk st. split; [exact I|reflexivity]. Qed.
Lemma ss_some f : same_shift f shifted -> same_shift (fun stk => some_ (f stk)) shiftedo.
Proof. intros H stk st. unfold some_. rewrite !run_bind. specialize (H stk st). destruct (run (f []) st); try (rewrite H; reflexivity). destruct H as [H1 ->]. split; [exact H1|reflexivity]. Qed.
Lemma ss_fail X sh n : same_shift (fun _ => @expected_failure X n) sh.
Proof. intros stk st. unfold expected_failure. rewrite !run_bind. destruct (run (expected_error n) st); reflexivity. Qed.
Ltac ss :=
  lazymatch goal with
  | |- same_shift (fun stk => some_ (@?f stk)) _ => apply (ss_some f); cbv beta
  | |- same_shift (fun stk => bind ?p (fun a => @?k stk a)) _ => apply (ss_bind _ _ _ p (fun a stk => k stk a)); intros; cbv beta; ss
  | |- same_shift (fun stk => Ret (Some (shift_expr ?e stk))) _ => apply ss_reto
  | |- same_shift (fun stk => Ret (shift_expr ?e stk)) _ => apply ss_ret
  | |- same_shift (fun stk => Ret None) _ => apply ss_none
  | |- same_shift (fun stk => Ret match ?b with _ => _ end) _ => destruct b; ss
  | |- same_shift (fun stk => if ?b then _ else _) _ => destruct b; ss
  | |- same_shift (fun stk => match ?b with _ => _ end) _ => destruct b; ss
  | |- _ => idtac
  end.
Section Steps.
Variable r : recs.
Lemma ss_interval : same_shift (step_interval r) shifted. Proof. unfold step_interval. ss. Qed.
Lemma ss_timestamp c : same_shift (step_timestamp r c) shifted.
Proof. unfold step_timestamp. ss. Qed.
Lemma ss_cast : same_shift (step_cast r) shifted.
Proof. unfold step_cast. ss. Qed.
Lemma ss_aggregate k c : same_shift (step_aggregate r k c) shifted.
Proof. unfold step_aggregate. ss. Qed.
Lemma ss_extract : same_shift (step_extract r) shifted.
Proof. unfold step_extract. ss. Qed.
Lemma ss_word t : same_shift (step_word r t) shifted. Proof. unfold step_word. ss. Qed.
Lemma ss_case : same_shift (step_case r) shifted. Proof. unfold step_case. ss. Qed.
Lemma ss_variable : same_shift step_variable shifted. Proof. unfold step_variable. ss. Qed.
Lemma ss_arg c p : same_shift (step_arg c p) shifted. Proof. unfold step_arg. ss. Qed.
Ltac ss_op := first [apply ss_word|apply ss_arg|apply ss_case|apply ss_variable|apply ss_cast|apply ss_aggregate|apply ss_extract].
Lemma ss_tail t : same_shift (step_tail r t) shiftedo.
Proof.
  assert (T : same_shift (fun stk =>
    if tok_eqb t TLParen then
      consume_token TLParen ;;;
      e <- parse_expression_paren r ;;
      consume_token TRParen ;;;
      Ret (Some (shift_expr e stk))
    else if is_kw t "EXISTS" then
      consume_keyword "EXISTS" ;;;
      consume_token TLParen ;;;
      q <- r_compound r ;;
      consume_token TRParen ;;;
      Ret (Some (shift_expr (EExists q) stk))
    else if is_kw t "CASE" then some_ (step_case r stk)
    else if tok_eqb t TAtAtGlobal || tok_eqb t TAtAtSession then some_ (step_variable stk)
    else Ret None) shiftedo) by (ss; ss_op).
  unfold step_tail. apply (ss_bind _ _ _ _ (fun a stk => _)); intros a.
  destruct (match t with TIdent _ k => _ | _ => _ end); [ss; ss_op|].
  destruct (_ && _); [ss; ss_op|]. destruct (_ && _); [ss; ss_op|].
  destruct t; try exact T. destruct a; try exact T. ss.
Qed.
Lemma ss_primary t : same_shift (step_primary r t) shiftedo.
Proof.
  assert (T : same_shift (fun stk =>
    if is_kw t "CAST" then some_ (step_cast r stk)
    else if is_kw t "COUNT" then some_ (step_aggregate r "COUNT" ECount stk)
    else if is_kw t "GROUP_CONCAT" then some_ (step_aggregate r "GROUP_CONCAT" EGroupConcat stk)
    else if is_kw t "EXTRACT" then some_ (step_extract r stk)
    else if is_kw t "LEFT" then
      p <- peek ;;
      if tok_eqb p TLParen then
        s <- consume ;; e <- parse_function r t s ;; Ret (Some (shift_expr e stk))
      else step_tail r t stk
    else step_tail r t stk) shiftedo) by (ss; first [apply ss_tail|ss_op]).
  unfold step_primary. apply (ss_bind _ _ _ _ (fun a stk => _)); intros lh.
  destruct (is_kw t "TRUE"); [ss|]. destruct (is_kw t "FALSE"); [ss|]. destruct (is_kw t "NULL"); [ss|].
  destruct (_ && _); [ss; ss_op|]. destruct t; try exact T; ss.
Qed.
End Steps.

(** ** [expr_step] reads an item and shifts it *)
Section Loop.
Variable r : recs.
Definition operand_step (t : tok) (stk : stack) : prog (option rres) :=
  if is_kw t "INTERVAL" then some_ (step_interval r stk)
  else if is_kw t "TIMESTAMPADD" then some_ (step_timestamp r ETimestampAdd stk)
  else if is_kw t "TIMESTAMPDIFF" then some_ (step_timestamp r ETimestampDiff stk)
  else if tok_eqb t TMul && negb (top_expr stk) then
    s <- consume_token TMul ;; Ret (Some (shift_expr (EIdentifier (mkParts [PStar s])) stk))
  else step_primary r t stk.
Definition operator_step (o : operator) (stk : stack) : prog (option rres) :=
  match o with
  | OpBin o => bin o stk
  | OpUn o => un o stk
  | OpIn => some_ (step_in r stk)
  | OpIs => some_ (step_is stk)
  | OpNot => some_ (step_not r stk)
  end.
Definition by_operator (inner : bool) (stk : stack) (t : tok) : prog (option rres) :=
  match operator_of (top_expr stk) t with
  | Some o => if allowed inner o then operator_step o stk else operand_step t stk
  | None => operand_step t stk
  end.
Lemma expr_step_by_operator inner stk st : run (expr_step r inner stk) st = run (by_operator inner stk (s_tok st)) st.
Proof.
  unfold expr_step. rewrite run_bind, run_token. cbv zeta. set (t := s_tok st). clearbody t.
  unfold by_operator, operator_step, operand_step, is_kw.
  destruct t; try (destruct (top_expr stk), inner; reflexivity).
  destruct k as [| |k]; try (destruct (top_expr stk), inner; reflexivity).
  cbn [kw_eqb operator_of tok_eqb].
  repeat match goal with |- context[String.eqb k ?s] => is_ground s; destruct (String.eqb_spec k s); [subst k; destruct (top_expr stk), inner; reflexivity|] end.
  destruct (top_expr stk), inner; reflexivity.
Qed.
Definition rmap {A B} (f : A -> B) (x : res A) : res B :=
  match x with ROk a st => ROk (f a) st | RErr st => RErr st | RPanic w => RPanic w | RFuel => RFuel end.
Lemma err_here_ok A m st (a : A) st1 : run (err_here m) st <> ROk a st1.
Proof. unfold err_here. rewrite run_bind, run_span, run_bind. destruct (run (err m (s_span st)) st); discriminate. Qed.
Lemma rmap_bind A B (f : A -> B) (p : prog A) st : run (a <- p ;; Ret (f a)) st = rmap f (run p st).
Proof. rewrite run_bind. destruct (run p st); reflexivity. Qed.
Lemma reduce_loop_top p : forall n stk e s, length stk <= n -> reduce_loop p e stk = RedOk s ->
  exists e' s', s = MExpr e' :: s' /\ reduce_loop p e' s' = RedOk s.
Proof.
  induction n as [|n IH]; intros stk e s L H.
  - destruct stk; [|cbn in L; lia]. cbn in H. injection H as <-. exists e, []. now split.
  - destruct stk as [|[x|o sp|o sp] stk]; cbn [reduce_loop] in H; cbn [length] in L.
    + injection H as <-. exists e, []. now split.
    + discriminate.
    + destruct (N.ltb p (bin_priority o)) eqn:E.
      * injection H as <-. exists e, (MBin o sp :: stk). split; [reflexivity|]. cbn. now rewrite E.
      * destruct stk as [|[x| |] stk]; try discriminate. cbn in L. refine (IH stk _ s _ H). lia.
    + destruct (N.ltb p (un_priority o)) eqn:E.
      * injection H as <-. exists e, (MUn o sp :: stk). split; [reflexivity|]. cbn. now rewrite E.
      * refine (IH stk _ s _ H). lia.
Qed.
Lemma reduce_top p stk s : reduce p stk = RedOk s -> exists e s', s = MExpr e :: s' /\ reduce p s = RedOk s.
Proof.
  destruct stk as [|[e| |] stk]; try discriminate. cbn [reduce]. intros H.
  destruct (reduce_loop_top p _ _ _ _ (le_n _) H) as (e' & s' & -> & R). exists e', s'. now split.
Qed.
Lemma operand_step_ss t stk st : run (operand_step t stk) st = rmap (option_map (fun e => shift_expr e stk)) (run (operand r t (top_expr stk)) st).
Proof.
  unfold operand. rewrite rmap_bind. unfold operand_step.
  assert (X : forall f : stack -> prog (option rres), same_shift f shiftedo -> run (f stk) st =
    rmap (option_map (fun e => shift_expr e stk)) (rmap (fun x => match x with Some (RedOk [MExpr e]) => Some e | _ => None end) (run (f []) st))).
  { intros f H. specialize (H stk st). destruct (run (f []) st) as [x st1|st1|w|]; cbn [rmap]; auto. destruct H as [H ->].
    destruct x as [x|]; [|reflexivity]. destruct H as [e ->]. reflexivity. }
  destruct (is_kw t "INTERVAL"); [exact (X (fun s => some_ (step_interval r s)) (ss_some _ (ss_interval r)))|].
  destruct (is_kw t "TIMESTAMPADD"); [exact (X (fun s => some_ (step_timestamp r ETimestampAdd s)) (ss_some _ (ss_timestamp r _)))|].
  destruct (is_kw t "TIMESTAMPDIFF"); [exact (X (fun s => some_ (step_timestamp r ETimestampDiff s)) (ss_some _ (ss_timestamp r _)))|].
  destruct (_ && _); [|exact (X (step_primary r t) (ss_primary r t))].
  refine (X (fun s => sp <- consume_token TMul ;; Ret (Some (shift_expr (EIdentifier (mkParts [PStar sp])) s))) _). ss.
Qed.
(** Reading an item and shifting it. *)
Definition shifts (i : option item) (stk : stack) : option rres := option_map (fun i => shift_item i stk) i.
Lemma expr_step_read inner stk st :
  run (expr_step r inner stk) st = rmap (fun i => shifts i stk) (run (read_item r inner (top_expr stk)) st) \/
  (forall x st1, run (expr_step r inner stk) st <> ROk x st1) /\
  (forall x st1, run (read_item r inner (top_expr stk)) st = ROk x st1 -> exists i m, x = Some i /\ shift_item i stk = RedErr m).
Proof.
  rewrite expr_step_by_operator. unfold by_operator, read_item. rewrite run_bind, run_token. set (t := s_tok st). clearbody t.
  assert (OP : run (operand_step t stk) st = rmap (fun i => shifts i stk) (run (e <- operand r t (top_expr stk) ;; Ret (option_map IExp e)) st)).
  { rewrite operand_step_ss, rmap_bind. destruct (run (operand r t (top_expr stk)) st) as [[e|] st1| | |]; reflexivity. }
  destruct (operator_of (top_expr stk) t) as [o|]; [|left; exact OP].
  destruct (allowed inner o); [|left; exact OP]. clear OP.
  destruct o as [o|o| | |]; cbn [operator_step].
  - left. unfold bin. rewrite !run_bind. destruct (run consume st); reflexivity.
  - left. unfold un. rewrite !run_bind. destruct (run consume st); reflexivity.
  - unfold some_, step_in, pop_lhs. destruct (reduce in_priority stk) as [s|m] eqn:R.
    + destruct (reduce_top _ _ _ R) as (e & s' & -> & _). left. rewrite !run_bind. cbn [run]. rewrite !run_bind.
      destruct (run (consume_keyword "IN") st) as [op st1| | |]; try reflexivity. rewrite !run_bind. destruct (run (parse_in_list r) st1); try reflexivity.
      cbn. unfold shift_post. now rewrite R.
    + right. split; [intros x st1; rewrite !run_bind; destruct (run (err_here m) st) eqn:EE; try discriminate; now apply err_here_ok in EE|]. intros x st1 H. rewrite run_bind in H.
      destruct (run (consume_keyword "IN") st) as [op st2| | |]; try discriminate. rewrite run_bind in H. destruct (run (parse_in_list r) st2); try discriminate.
      cbn in H. injection H as <- <-. eexists _, _. split; [reflexivity|]. cbn. unfold shift_post. now rewrite R.
  - unfold some_, step_is, read_is, pop_lhs. destruct (reduce in_priority stk) as [s|m] eqn:R.
    + destruct (reduce_top _ _ _ R) as (e & s' & -> & _). left. rewrite !run_bind. cbn [run]. rewrite !run_bind.
      destruct (run (consume_keyword "IS") st) as [op st1| | |]; try reflexivity. rewrite !run_bind, run_token.
      destruct (is_kw (s_tok st1) "NOT").
      * rewrite !run_bind. destruct (run consume st1) as [u st2| | |]; try reflexivity. rewrite !run_bind, run_token.
        destruct (kw_assoc is_not_kinds (s_tok st2)) as [[? k]|].
        -- rewrite !run_bind. destruct (run consume st2); try reflexivity. cbn. unfold shift_post. now rewrite R.
        -- unfold expected_failure. rewrite !run_bind. destruct (run (expected_error _) st2); reflexivity.
      * destruct (kw_assoc is_kinds (s_tok st1)) as [[? k]|].
        -- rewrite !run_bind. destruct (run consume st1); try reflexivity. cbn. unfold shift_post. now rewrite R.
        -- unfold expected_failure. rewrite !run_bind. destruct (run (expected_error _) st1); reflexivity.
    + right. split; [intros x st1; rewrite !run_bind; destruct (run (err_here m) st) eqn:EE; try discriminate; now apply err_here_ok in EE|]. intros x st1 H.
      rewrite run_bind in H. match type of H with match ?x with _ => _ end = _ => destruct x eqn:E; try discriminate end.
      cbn in H. injection H as <- <-. eexists _, _. split; [reflexivity|]. cbn. unfold shift_post. now rewrite R.
  - unfold some_, step_not, pop_lhs. destruct (reduce in_priority stk) as [s|m] eqn:R.
    + destruct (reduce_top _ _ _ R) as (e & s' & -> & R'). left. rewrite !run_bind. cbn [run]. rewrite !run_bind.
      destruct (run (consume_keyword "NOT") st) as [op st1| | |]; try reflexivity. rewrite !run_bind, run_token.
      destruct (is_kw (s_tok st1) "IN"); [|destruct (is_kw (s_tok st1) "LIKE")].
      * rewrite !run_bind. destruct (run (consume_keyword "IN") st1) as [u st2| | |]; try reflexivity. rewrite !run_bind.
        destruct (run (parse_in_list r) st2); try reflexivity. cbn. unfold shift_post. now rewrite R.
      * rewrite !run_bind. destruct (run consume st1); try reflexivity. cbn [run rmap shifts option_map shift_item]. unfold shift_binop.
        change (bin_priority NotLike) with in_priority. now rewrite R, R'.
      * unfold expected_failure. rewrite !run_bind. destruct (run (expected_error _) st1); reflexivity.
    + right. split; [intros x st1; rewrite !run_bind; destruct (run (err_here m) st) eqn:EE; try discriminate; now apply err_here_ok in EE|]. intros x st1 H. rewrite run_bind in H.
      destruct (run (consume_keyword "NOT") st) as [op st2| | |]; try discriminate. rewrite run_bind, run_token in H.
      destruct (is_kw (s_tok st2) "IN"); [|destruct (is_kw (s_tok st2) "LIKE")].
      * rewrite run_bind in H. destruct (run (consume_keyword "IN") st2) as [u st3| | |]; try discriminate. rewrite run_bind in H.
        destruct (run (parse_in_list r) st3); try discriminate. cbn in H. injection H as <- <-. eexists _, _. split; [reflexivity|].
        cbn. unfold shift_post. now rewrite R.
      * rewrite run_bind in H. destruct (run consume st2); try discriminate. cbn in H. injection H as <- <-. eexists _, _. split; [reflexivity|].
        cbn [shift_item]. unfold shift_binop. change (bin_priority NotLike) with in_priority. now rewrite R.
      * unfold expected_failure in H. rewrite run_bind in H. destruct (run (expected_error _) st2); discriminate.
Qed.
End Loop.
