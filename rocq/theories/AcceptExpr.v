(** C51: expressions follow the grammar. *)
From Verif Require Export AcceptQuery.
Local Open Scope string_scope.
Local Open Scope list_scope.

Section Grammar.
Variable o : options.
Notation reads_at := (reads_at o). Notation reads := (reads o). Notation follow := (follow o). Notation calls := (calls o).
Variable r : recs.
Hypothesis HE : forall b, calls (r_expr r b) (N_ (NExpr b)).
Hypothesis HC : reads (r_compound r) (fun s ts => derives o (N_ (match s with SSelect _ => NSingle | _ => NQuery end)) ts).
Hint Resolve HE HC : reads.
Lemma c_outer : calls (parse_expression_outer r) (N_ NOuter).
Proof. rule_of. unfold parse_expression_outer. walk. Qed.
Lemma c_paren : calls (parse_expression_paren r) (N_ NParen).
Proof. rule_of. unfold parse_expression_paren. walk. Qed.
Hint Resolve c_outer c_paren : reads.
Lemma c_function t sp : calls (parse_function r t sp) (N_ NCall).
Proof. rule_of. unfold parse_function, function_of. walk. Qed.
Hint Resolve c_function : reads.
Lemma c_unit : calls consume_time_unit (N_ NUnit).
Proof.
  rule_of. unfold consume_time_unit, parse_time_unit. apply ra_token. destruct (kw_assoc time_unit_table t) as [[k u]|] eqn:E; cbn [option_map snd]; walk.
Qed.
Hint Resolve c_unit : reads.
Lemma c_in_list : calls (parse_in_list r) (paren [commas (N_ NParen)]).
Proof. rule_of. unfold parse_in_list. walk. Qed.
Hint Resolve c_in_list : reads.
Lemma s_interval s ps : silent o (interval_parts s ps).
Proof.
  induction ps as [|p ps IH]; intros t; cbn [interval_parts]; [now apply ra_ret|]. destruct (parse_i64 p); [|apply ra_err].
  eapply ra_bind; [apply IH|]. intros l ts -> t1. now apply ra_ret.
Qed.
Hint Resolve s_interval : reads.
(** A primary expression, shifted. *)
Definition prim (stk : stack) : rres -> list tok -> Prop := fun x ts => ts = [] /\ exists e, x = shift_expr e stk.
Definition prim' (stk : stack) : option rres -> list tok -> Prop := fun x ts => ts = [] /\ exists e, x = Some (shift_expr e stk).
Lemma c_interval t stk : is_kw t "INTERVAL" = true -> reads_at t (step_interval r stk) (follow [N_ NPrimary] (prim stk)).
Proof. intros E. unfold step_interval. walk. Qed.
Lemma c_timestamp t stk c : is_kw t "TIMESTAMPADD" || is_kw t "TIMESTAMPDIFF" = true -> reads_at t (step_timestamp r c stk) (follow [N_ NPrimary] (prim stk)).
Proof. intros E. unfold step_timestamp. split_bools; walk; take 5; walk. Qed.
Lemma c_cast t stk : reads_at t (step_cast r stk) (follow [N_ NPrimary] (prim stk)).
Proof. unfold step_cast. walk; take 3; walk. Qed.
Lemma c_aggregate t stk k c : k = "COUNT" \/ k = "GROUP_CONCAT" -> reads_at t (step_aggregate r k c stk) (follow [N_ NPrimary] (prim stk)).
Proof. intros [-> | ->]; unfold step_aggregate; walk. Qed.
Lemma c_extract t stk : reads_at t (step_extract r stk) (follow [N_ NPrimary] (prim stk)).
Proof. unfold step_extract. walk; take 3; walk. Qed.

Lemma d_prim i a ts : nth_error (match rule o NPrimary with Alt l => l | _ => [] end) i = Some a -> derives o a ts -> derives o (N_ NPrimary) ts.
Proof. intros E D. apply d_rule. cbn [rule] in *. eapply d_alt; [|exact D]. eapply nth_error_In; eauto. Qed.
Lemma prim_of A t (p : prog A) (R : A -> list tok -> Prop) : reads_at t p (fun x ts => derives o (N_ NPrimary) ts /\ R x []) -> reads_at t p (follow [N_ NPrimary] R).
Proof. intros H. eapply ra_conseq; [exact H|]. intros x ts [D X]. exists ts, []. rewrite app_nil_r. repeat split; [now apply (proj1 (d_one _ _ _))|exact X]. Qed.
Definition dotted := Star (Seq [T TPeriod; Alt [T TMul; name]]).
Lemma c_parts n i : calls (parse_id_parts n i) dotted.
Proof. unfold dotted. rule_of. unfold parse_id_parts. walk. Qed.
Lemma plain_of t s : reads (token_to_plain_identifier t s) (fun _ ts => ts = [] /\ in_class o CColumn t = true).
Proof.
  intros u. unfold token_to_plain_identifier. destruct t; try apply ra_expected_failure'. destruct (kw_reserved k) eqn:K; [apply ra_error|].
  cbn [in_class]. destruct (negb _); [apply ra_quiet; [reflexivity|intros _]|]; apply ra_ret; (split; [reflexivity|now rewrite K]).
Qed.
Lemma c_word t stk : in_class o CCallable t = true -> reads_at t (step_word r t stk) (follow [N_ NPrimary] (prim stk)).
Proof.
  intros E. apply prim_of. unfold step_word. apply ra_consume. intros s t1. apply ra_token. split_on (tok_eqb t1 TLParen).
  - eapply ra_bind; [apply c_function|]. intros e ts1 D t2. apply ra_ret. split; [|split; [reflexivity|eauto]]. rewrite app_nil_r.
    apply (d_prim 12 _ _ eq_refl). change (t :: ts1) with ([t] ++ ts1). constructor; [now constructor|]. now apply (proj1 (d_one _ _ _)).
  - destruct (kw_assoc bare_functions t) as [[k f]|] eqn:K.
    + apply ra_ret. split; [|split; [reflexivity|eauto]]. apply (d_prim 13 _ _ eq_refl). eapply d_table; [exact K|reflexivity].
    + eapply ra_bind; [apply plain_of|]. intros i ts1 [-> X] t2. eapply ra_bind; [apply c_parts|]. intros ps ts2 D t3. apply ra_ret. split; [|split; [reflexivity|eauto]].
      cbn [app]. rewrite app_nil_r. apply (d_prim 14 _ _ eq_refl). change (t :: ts2) with ([t] ++ ts2). constructor; [now constructor|]. now apply (proj1 (d_one _ _ _)).
Qed.
Definition when_ := Seq [W "WHEN"; expr_; W "THEN"; expr_].
Lemma c_whens t e x : reads_at t (recovered_acc x e (parse_whens r)) (follow [Seq [when_; Star when_]; Opt (Seq [W "ELSE"; expr_])] any).
Proof.
  apply ra_recovered_acc. unfold parse_whens.
  eapply (ra_bind o _ _ _ _ _ (fine (fun _ => derives o (Seq [when_; Star when_])))).
  { apply (ra_loop_acc o _ _ (fun l ts => ts = [] \/ derives o (Seq [when_; Star when_]) ts)); [now left|].
    intros l ts1 I t1. apply (ra_conseq o _ _ _ (follow [when_] (fun x ts => ts = [] /\ snd x <> Abort))).
    - unfold when_. walk. apply f_ret. split; [reflexivity|]. cbn [snd]. now destruct (is_kw _ _).
    - intros y ts2 (a1 & a2 & -> & X & -> & NA). apply (proj2 (d_one _ _ _)) in X. rewrite app_nil_r.
      assert (D : derives o (Seq [when_; Star when_]) (ts1 ++ a1)).
      { destruct I as [->|D]; [cbn [app]; rewrite <- (app_nil_r a1); constructor; [exact X|change (@nil tok) with (@nil tok ++ []); repeat constructor]|].
        apply d_cons_inv in D as (b1 & b2 & -> & Y & Z). apply (proj2 (d_one _ _ _)) in Z. rewrite <- app_assoc. constructor; [exact Y|]. apply (proj1 (d_one _ _ _)). now apply d_snoc. }
      destruct y as [y []]; cbn [snd fst] in *; [now right|exact D|congruence]. }
  intros [ws ok] ts1 [Ok D] t1. cbn [fst snd] in *. subst ok. cbv iota.
  apply (ra_conseq o _ _ _ (fun x ts => snd x = true /\ derives o (Opt (Seq [W "ELSE"; expr_])) ts)).
  - apply ra_skip_kw.
    + intros E s t2. eapply ra_try'; [apply HE|]. intros e2 ts2 X t3. apply ra_ret. split; [reflexivity|]. constructor. rewrite app_nil_r. change (t1 :: ts2) with ([t1] ++ ts2).
      constructor; [now constructor|]. now apply (proj1 (d_one _ _ _)).
    + intros _. apply ra_ret. split; [reflexivity|constructor].
  - intros y ts2 [X Y]. split; [exact X|]. exists (ts1 ++ ts2), []. rewrite app_nil_r. repeat split. constructor; [exact D|]. now apply (proj1 (d_one _ _ _)).
Qed.
Lemma c_whens' t e x : reads_at t (recovered_acc x e (parse_whens r))
  (follow [W "WHEN"; expr_; W "THEN"; expr_; Star when_; Opt (Seq [W "ELSE"; expr_])] any).
Proof.
  eapply f_weaken; [apply c_whens|]. intros ts D. apply d_cons_inv in D as (a & b & -> & X & Y). apply d_cons_inv in X as (c & d & -> & X & Z).
  apply (proj2 (d_one _ _ _)) in Z. rewrite <- app_assoc. apply (d_app' o [W "WHEN"; expr_; W "THEN"; expr_]); [exact X|]. now constructor.
Qed.
Lemma c_case t stk : reads_at t (step_case r stk) (follow [N_ NPrimary] (prim stk)).
Proof.
  unfold step_case. walk.
  all: eapply (f_take _ _ _ _ _ _ 6); [apply c_whens'|cbn [skipn]; intros [? ?]; intro]; walk.
Qed.
Lemma c_variable t stk : reads_at t (step_variable stk) (follow [N_ NPrimary] (prim stk)).
Proof.
  unfold step_variable. assert (K : forall s1 s2, reads (dot <- consume_token TPeriod ;; t <- token ;;
    v <- (if is_kw t "TIME_ZONE" then Ret VTimeZone else match t with TIdent v _ => Ret (VOther v) | _ => expected_failure "Identifier" end) ;;
    vs <- consume ;; Ret (shift_expr (EVariable s1 s2 (Some dot) v vs) stk)) (follow [T TPeriod; C CWord] (prim stk))).
  { intros s1 s2 t1. walk1. walk1. destruct t0; walk; discriminate. }
  red_head (N_ NPrimary). alt 18. apply f_seq. cbn [app]. apply ra_skip_tok.
  - intros -> s t1. eapply ra_conseq; [apply K|]. intros y ts (a1 & a2 & -> & X & Y). exists (TAtAtGlobal :: a1), a2. split; [reflexivity|split; [|exact Y]].
    change (TAtAtGlobal :: a1) with ([TAtAtGlobal] ++ a1). constructor; [|exact X]. eapply d_alt; [left; reflexivity|constructor].
  - intros _. alt 1. cbv beta iota. apply ra_assoc. walk1. apply K.
Qed.

(** One step of the loop: what it reads depends on the tops of the stacks. *)
Definition step_reads (b : bool) (stk stk' : stack) : g :=
  match top_expr stk, top_expr stk' with
  | false, false => prefix_op b | false, true => N_ NPrimary | true, false => infix_op b | true, true => postfix_op b end.
Definition step_post (b : bool) (stk : stack) : option rres -> list tok -> Prop := fun x ts =>
  match x with None => ts = [] | Some (RedErr _) => True | Some (RedOk stk') => derives o (step_reads b stk stk') ts end.
Lemma reduce_top p e stk stk' : reduce_loop p e stk = RedOk stk' -> top_expr stk' = true.
Proof.
  revert e. induction stk as [stk IH] using (well_founded_induction (Wf_nat.well_founded_ltof _ (@length member))). unfold ltof in IH.
  intros e. destruct stk as [|[x|op s|u s] stk]; cbn [reduce_loop]; [injection 1 as <-; reflexivity|discriminate| |].
  - destruct (N.ltb _ _); [injection 1 as <-; reflexivity|]. destruct stk as [|[lhs| |] stk]; try discriminate. apply IH. cbn [length]. lia.
  - destruct (N.ltb _ _); [injection 1 as <-; reflexivity|]. apply IH. cbn [length]. lia.
Qed.
Lemma reduce_tops p stk stk' : reduce p stk = RedOk stk' -> top_expr stk = true /\ top_expr stk' = true.
Proof. destruct stk as [|[e| |] stk]; cbn [reduce]; try discriminate. intros H. split; [reflexivity|]. eapply reduce_top; eauto. Qed.
Lemma binop_tops s op stk stk' : shift_binop s op stk = RedOk stk' -> top_expr stk = true /\ top_expr stk' = false.
Proof. unfold shift_binop. destruct (reduce _ stk) as [x|] eqn:E; [|discriminate]. injection 1 as <-. split; [|reflexivity]. now apply reduce_tops in E. Qed.
Lemma unary_tops s op stk stk' : shift_unary s op stk = RedOk stk' -> top_expr stk = false /\ top_expr stk' = false.
Proof. unfold shift_unary. destruct (top_expr stk); [discriminate|]. injection 1 as <-. now split. Qed.
Lemma expr_tops e stk stk' : shift_expr e stk = RedOk stk' -> top_expr stk = false /\ top_expr stk' = true.
Proof. unfold shift_expr. destruct (top_expr stk); [discriminate|]. injection 1 as <-. now split. Qed.
Lemma c_bin b t op stk : derives o (infix_op b) [t] -> reads_at t (bin op stk) (step_post b stk).
Proof.
  intros D. unfold bin. apply ra_consume. intros s t1. apply ra_ret. cbn [step_post]. destruct (shift_binop s op stk) eqn:E; [|exact I].
  apply binop_tops in E as [E1 E2]. unfold step_reads. now rewrite E1, E2.
Qed.
Lemma c_un b t op stk : derives o (prefix_op b) [t] -> reads_at t (un op stk) (step_post b stk).
Proof.
  intros D. unfold un. apply ra_consume. intros s t1. apply ra_ret. cbn [step_post]. destruct (shift_unary s op stk) eqn:E; [|exact I].
  apply unary_tops in E as [E1 E2]. unfold step_reads. now rewrite E1, E2.
Qed.
Lemma c_prim b t p stk : reads_at t p (follow [N_ NPrimary] (prim stk)) -> reads_at t (Expr.some_ p) (step_post b stk).
Proof.
  intros H. unfold Expr.some_. eapply ra_bind; [exact H|]. intros x ts (a1 & a2 & -> & D & -> & e & ->) t1. apply ra_ret. rewrite !app_nil_r. cbn [step_post].
  destruct (shift_expr e stk) eqn:E; [|exact I]. apply expr_tops in E as [E1 E2]. unfold step_reads. rewrite E1, E2. now apply (proj2 (d_one _ _ _)).
Qed.
Lemma c_prim' b t p stk : reads_at t p (follow [N_ NPrimary] (prim' stk)) -> reads_at t p (step_post b stk).
Proof.
  intros H. eapply ra_conseq; [exact H|]. intros x ts (a1 & a2 & -> & D & -> & e & ->). rewrite !app_nil_r. cbn [step_post].
  destruct (shift_expr e stk) eqn:E; [|exact I]. apply expr_tops in E as [E1 E2]. unfold step_reads. rewrite E1, E2. now apply (proj2 (d_one _ _ _)).
Qed.
Lemma pop_of stk m : silent o (pop_lhs stk m).
Proof. intros t. unfold pop_lhs. destruct (reduce _ _) as [[|[] ?]|]; try apply ra_err_here'. now apply ra_ret. Qed.
Lemma pop_top A t stk m (k : expr * stack -> prog A) R : (top_expr stk = true -> forall x, reads (k x) R) -> reads_at t (bind (pop_lhs stk m) k) R.
Proof.
  intros H. destruct (top_expr stk) eqn:E.
  - eapply ra_bind; [apply pop_of|]. intros x ts -> t1. now apply H.
  - unfold pop_lhs. destruct (reduce _ _) as [x|] eqn:X; [|apply ra_err_here]. apply reduce_tops in X as [X _]. congruence.
Qed.
Definition shifts : rres -> list tok -> Prop := fun x ts => ts = [] /\ exists e stk, x = shift_expr e stk.
Lemma c_post t p stk : top_expr stk = true -> reads_at t p (follow [postfix_op false] shifts) -> reads_at t p (fun x ts => step_post false stk (Some x) ts).
Proof.
  intros T H. eapply ra_conseq; [exact H|]. intros x ts (a1 & a2 & -> & D & -> & e & stk1 & ->). rewrite !app_nil_r. cbn [step_post].
  destruct (shift_expr e stk1) eqn:E; [|exact I]. apply expr_tops in E as [E1 E2]. unfold step_reads. rewrite T, E2. now apply (proj2 (d_one _ _ _)).
Qed.
Lemma c_some b t p stk : reads_at t p (fun x ts => step_post b stk (Some x) ts) -> reads_at t (Expr.some_ p) (step_post b stk).
Proof. intros H. unfold Expr.some_. eapply ra_bind; [exact H|]. intros x ts D t1. apply ra_ret. now rewrite app_nil_r. Qed.
Lemma c_in t stk : reads_at t (step_in r stk) (fun x ts => step_post false stk (Some x) ts).
Proof.
  unfold step_in. apply pop_top. intros T [lhs stk1] t1. apply c_post; [exact T|]. cbn [postfix_op]. walk.
Qed.
Lemma c_is t stk : reads_at t (step_is stk) (fun x ts => step_post false stk (Some x) ts).
Proof.
  unfold step_is. apply pop_top. intros T [lhs stk1] t1. apply c_post; [exact T|]. cbn [postfix_op]. walk.
Qed.
Lemma c_not t stk : reads_at t (step_not r stk) (fun x ts => step_post false stk (Some x) ts).
Proof.
  unfold step_not. apply pop_top. intros T [lhs stk1] t1. eapply ra_bind; [apply ra_keyword'|]. intros s ts [-> K] t2. apply ra_token. split_on (is_kw t2 "IN").
  - apply (ra_conseq o _ _ _ (follow [W "IN"; paren [commas (N_ NParen)]] shifts)); [walk|]. intros x ts (a1 & a2 & -> & D & -> & e & stk2 & ->). rewrite !app_nil_r. cbn [step_post].
    destruct (shift_expr e stk2) eqn:E; [|exact I]. apply expr_tops in E as [E1 E2]. unfold step_reads. rewrite T, E2. cbn [postfix_op].
    eapply d_alt; [left; reflexivity|]. constructor; [|exact D]. constructor. now constructor.
  - split_on (is_kw t2 "LIKE"); [|apply ra_expected_failure']. apply ra_consume. intros s2 t3. apply ra_ret. cbn [step_post].
    destruct (shift_binop _ _ _) eqn:E; [|exact I]. apply binop_tops in E as [_ E2]. unfold step_reads. rewrite T, E2. cbn [infix_op].
    eapply d_alt; [right; left; reflexivity|]. unfold words. cbn [map]. constructor; [now constructor|]. change [t2] with ([t2] ++ []). constructor; [now constructor|constructor].
Qed.

Lemma c_arg t stk c p : (in_class o CArgument t = true /\ reads_at t p (fun _ ts => ts = [t])) \/ (is_kw t "_LIST_" = true /\ o_list_hack o = true /\ p = consume_keyword "_LIST_") ->
  reads_at t (step_arg c p stk) (follow [N_ NPrimary] (prim stk)).
Proof.
  intros H. apply prim_of. unfold step_arg. apply ra_quiet; [reflexivity|]. intros n.
  destruct H as [[H P]|(H & L & ->)]; (eapply ra_bind; [first [exact P|apply ra_keyword']|]).
  - intros s ts -> t1. apply ra_ret. split; [|split; [reflexivity|eauto]]. cbn [app]. apply (d_prim 5 _ _ eq_refl). now constructor.
  - intros s ts [-> _] t1. apply ra_ret. split; [|split; [reflexivity|eauto]]. cbn [app]. eapply (d_prim 1); [reflexivity|]. rewrite L. now constructor.
Qed.
Lemma ra_tok_of t w : t = w -> reads_at t (consume_token w) (fun _ ts => ts = [t]).
Proof. intros ->. eapply ra_conseq; [apply ra_token'|]. now intros _ ts [-> _]. Qed.
Lemma c_tail b t stk : reads_at t (step_tail r t stk) (step_post b stk).
Proof.
  unfold step_tail. apply ra_arguments. destruct (match t with TIdent _ k => kw_expr_ident k | _ => false end) eqn:E0.
  { apply c_prim, c_word. destruct t; try discriminate. cbn [in_class]. now rewrite E0. }
  destruct (tok_eqb t TQuestionMark && _) eqn:E1.
  { apply andb_prop in E1 as [E1 A]. apply tok_eqb_eq in E1 as ->. apply c_prim, c_arg. left. split; [exact A|now apply ra_tok_of]. }
  destruct (tok_eqb t TPercentS && _) eqn:E2.
  { apply andb_prop in E2 as [E2 A]. apply tok_eqb_eq in E2 as ->. apply c_prim, c_arg. left. split; [exact A|now apply ra_tok_of]. }
  assert (K : reads_at t (if tok_eqb t TLParen then
    consume_token TLParen ;;;
    e <- parse_expression_paren r ;;
    consume_token TRParen ;;;
    Ret (Some (shift_expr e stk))
  else if is_kw t "EXISTS" then
    consume_keyword "EXISTS" ;;;
    consume_token TLParen ;;;
    q <- r_compound r ;;
    consume_token TRParen ;;;
    Ret (Some (shift_expr (EExists q) stk))
  else if is_kw t "CASE" then Expr.some_ (step_case r stk)
  else if tok_eqb t TAtAtGlobal || tok_eqb t TAtAtSession then Expr.some_ (step_variable stk)
  else Ret None) (step_post b stk)).
  { destruct (tok_eqb t TLParen) eqn:B1; [apply c_prim'; walk|]. destruct (is_kw t "EXISTS") eqn:B2; [apply c_prim'; walk|].
    destruct (is_kw t "CASE"); [apply c_prim, c_case|]. destruct (_ || _); [apply c_prim, c_variable|]. now apply ra_ret. }
  destruct t; try exact K. destruct (o_arguments o) eqn:A; try exact K. apply c_prim', prim_of, ra_consume. intros s t1. apply ra_ret. split; [|split; [reflexivity|eauto]].
  apply (d_prim 5 _ _ eq_refl). constructor. cbn [in_class]. now rewrite A.
Qed.
Lemma c_primary b t stk : reads_at t (step_primary r t stk) (step_post b stk).
Proof.
  unfold step_primary. apply ra_listhack. destruct (is_kw t "TRUE") eqn:B1; [apply c_prim'; walk|]. destruct (is_kw t "FALSE") eqn:B2; [apply c_prim'; walk|].
  destruct (is_kw t "NULL") eqn:B3; [apply c_prim'; walk|]. destruct (is_kw t "_LIST_" && _) eqn:B4.
  { apply andb_prop in B4 as [B4 L]. apply c_prim, c_arg. right. now repeat split. }
  assert (K : reads_at t (if is_kw t "CAST" then Expr.some_ (step_cast r stk)
  else if is_kw t "COUNT" then Expr.some_ (step_aggregate r "COUNT" ECount stk)
  else if is_kw t "GROUP_CONCAT" then Expr.some_ (step_aggregate r "GROUP_CONCAT" EGroupConcat stk)
  else if is_kw t "EXTRACT" then Expr.some_ (step_extract r stk)
  else if is_kw t "LEFT" then
    p <- peek ;;
    if tok_eqb p TLParen then
      s <- consume ;; e <- parse_function r t s ;; Ret (Some (shift_expr e stk))
    else step_tail r t stk
  else step_tail r t stk) (step_post b stk)).
  { destruct (is_kw t "CAST"); [apply c_prim, c_cast|]. destruct (is_kw t "COUNT"); [apply c_prim, c_aggregate; auto|].
    destruct (is_kw t "GROUP_CONCAT"); [apply c_prim, c_aggregate; auto|]. destruct (is_kw t "EXTRACT"); [apply c_prim, c_extract|].
    destruct (is_kw t "LEFT") eqn:L; [|apply c_tail]. apply ra_peek. intros p. destruct (tok_eqb p TLParen); [|apply c_tail].
    apply c_prim', prim_of, ra_consume. intros s t1. eapply ra_bind; [apply c_function|]. intros e ts D t2. apply ra_ret. split; [|split; [reflexivity|eauto]].
    rewrite app_nil_r. apply (d_prim 12 _ _ eq_refl). change (t :: ts) with ([t] ++ ts). constructor; [|now apply (proj1 (d_one _ _ _))]. constructor. destruct t; try discriminate.
    cbn [in_class is_kw] in *. rewrite L. apply orb_true_r. }
  destruct t; try exact K; apply c_prim'; walk.
Qed.
Lemma d_hd a l t : derives o a [t] -> derives o (Alt (a :: l)) [t].
Proof. apply d_alt. now left. Qed.
Lemma d_tl a l t : derives o (Alt l) [t] -> derives o (Alt (a :: l)) [t].
Proof. intros H. inversion H; subst. eapply d_alt; [right; eassumption|assumption]. Qed.
Ltac pick := first [ apply d_word; assumption | match goal with H : tok_eqb _ _ = true |- _ => apply tok_eqb_eq in H; rewrite H; apply d_token end
                   | apply d_hd; pick | apply d_tl; pick ].
Lemma c_step b stk : reads (expr_step r b stk) (step_post b stk).
Proof.
  intros t. unfold expr_step. apply ra_token. cbv zeta.
  repeat (match goal with |- reads_at _ (if ?c then _ else _) _ => destruct c eqn:?; [|] end; [|]).
  all: split_bools.
  all: try (destruct b; [discriminate|]).
  all: try (apply c_bin; cbn [infix_op]; unfold one_of; cbn [map]; pick).
  all: try (apply c_un; cbn [prefix_op]; pick).
  all: try apply c_primary.
  all: try (apply c_some; first [apply c_in | apply c_is | apply c_not]).
  all: try (apply c_prim; first [apply c_interval | apply c_timestamp]; rewrite ?orb_true_iff; auto).
  - destruct b; apply c_bin; cbn [infix_op]; unfold one_of; cbn [map]; pick.
  - destruct b; apply c_un; cbn [prefix_op]; pick.
  - destruct b; apply c_un; cbn [prefix_op]; pick.
  - apply c_prim'; walk.
Qed.
Definition open_ (b : bool) := Seq [Opt (Seq [N_ (NExpr b); infix_op b]); Star (prefix_op b)].
Lemma d_two a b ts : derives o (Seq [a; b]) ts <-> exists t1 t2, ts = t1 ++ t2 /\ derives o a t1 /\ derives o b t2.
Proof.
  split.
  - intros H. apply d_cons_inv in H as (t1 & t2 & -> & X & Y). apply (proj2 (d_one _ _ _)) in Y. eauto 6.
  - intros (t1 & t2 & -> & X & Y). constructor; [exact X|now apply (proj1 (d_one _ _ _))].
Qed.
Lemma e_first b ts us : derives o (Star (prefix_op b)) ts -> derives o (N_ NPrimary) us -> derives o (N_ (NOperand b)) (ts ++ us).
Proof. intros X Y. apply d_rule. cbn [rule]. apply d_two. eauto 6. Qed.
Lemma e_tail b ts us : derives o (N_ (NExpr b)) ts -> derives o (N_ (NTail b)) us -> derives o (N_ (NExpr b)) (ts ++ us).
Proof.
  intros X Y. inversion X as [| | |n ts0 D| | | | | | |]; subst. cbn [rule] in D. apply d_two in D as (a & c & -> & D1 & D2). apply d_rule. cbn [rule]. apply d_two.
  exists a, (c ++ us). rewrite app_assoc. repeat split; [exact D1|now apply d_snoc].
Qed.
Lemma c_expression b : calls (parse_expression r b) (N_ (NExpr b)).
Proof.
  intros t. unfold parse_expression.
  eapply (ra_bind o _ _ _ _ _ (fun stk ts => derives o (if top_expr stk then N_ (NExpr b) else open_ b) ts)).
  - apply (ra_loop o _ _ _ (fun stk ts => derives o (if top_expr stk then N_ (NExpr b) else open_ b) ts)).
    { cbn [top_expr]. apply d_two. exists [], []. repeat split; constructor. }
    intros stk ts1 I t1. eapply ra_bind; [apply c_step|]. intros [[stk'|m]|] ts2 D t2; cbn [step_post] in D.
    + apply ra_ret. rewrite app_nil_r. unfold step_reads in D. destruct (top_expr stk), (top_expr stk').
      * apply e_tail; [exact I|]. apply d_rule. cbn [rule]. eapply d_alt; [right; left; reflexivity|exact D].
      * apply d_two. exists (ts1 ++ ts2), []. rewrite app_nil_r. repeat split; [|constructor]. constructor. apply d_two. eauto 6.
      * apply d_two in I as (a & c & -> & X & Y). pose proof (e_first _ _ _ Y D) as P. rewrite <- app_assoc. inversion X; subst.
        -- cbn [app]. apply d_rule. cbn [rule]. apply d_two. exists (c ++ ts2), []. rewrite app_nil_r. repeat split; [exact P|constructor].
        -- match goal with H : derives o (Seq [N_ (NExpr b); _]) _ |- _ => apply d_two in H as (a1 & a2 & -> & Z1 & Z2) end. rewrite <- app_assoc.
           apply e_tail; [exact Z1|]. apply d_rule. cbn [rule]. eapply d_alt; [left; reflexivity|]. apply d_two. eauto 6.
      * apply d_two in I as (a & c & -> & X & Y). rewrite <- app_assoc. apply d_two. exists a, (c ++ ts2). repeat split; [exact X|now apply d_snoc].
    + apply ra_err_here'.
    + subst ts2. apply ra_ret. rewrite !app_nil_r. exact I.
  - intros stk ts1 I t1. destruct (reduce 99999%N stk) as [stk'|m] eqn:E; [|apply ra_err_here'].
    apply reduce_tops in E as [E1 _]. rewrite E1 in I. destruct stk' as [|[e|op s|u s] [|? ?]]; try apply ra_err_here'. apply ra_ret. now rewrite app_nil_r.
Qed.
End Grammar.
#[export] Hint Resolve c_outer c_paren c_function c_unit c_in_list : reads.
