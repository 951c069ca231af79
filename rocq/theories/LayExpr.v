(** C56: the functions of Expr.v. *)
From Verif Require Export LaySelect Expr.
Local Open Scope string_scope.
Local Open Scope list_scope.

#[export] Instance Rs_member : Respan member := fun f x => match x with MExpr e => MExpr (respan f e) | MBin o s => MBin o (f s) | MUn o s => MUn o (f s) end.
#[export] Instance Rs_rres : Respan rres := fun f x => match x with RedOk l => RedOk (respan f l) | RedErr m => RedErr m end.
Section Pure.
Context {L : lenv}.
Lemma reduce_loop_l p stk : forall e, reduce_loop p (respan lf e) (respan lf stk) = respan lf (reduce_loop p e stk).
Proof.
  revert stk. fix IH 1. intros [|[e0|o s|o s] stk] e; try reflexivity; cbn [respan Rs_list List.map Rs_member reduce_loop].
  - destruct (N.ltb _ _); [reflexivity|]. destruct stk as [|[lhs|o2 s2|o2 s2] stk]; try reflexivity. cbn [List.map]. change (List.map (respan lf) stk) with (respan lf stk).
    exact (IH stk (EBinary o s lhs e)).
  - destruct (N.ltb _ _); [reflexivity|]. change (List.map (respan lf) stk) with (respan lf stk). exact (IH stk (EUnary o s e)).
Qed.
Lemma reduce_l p stk : reduce p (respan lf stk) = respan lf (reduce p stk).
Proof. unfold reduce. destruct stk as [|[e|o s|o s] stk]; try reflexivity. apply reduce_loop_l. Qed.
Lemma shift_expr_l e e' stk stk' : e' = respan lf e -> stk' = respan lf stk -> shift_expr e' stk' = respan lf (shift_expr e stk).
Proof. intros -> ->. unfold shift_expr. now destruct stk as [|[] ]. Qed.
Lemma shift_unary_l s s' o stk stk' : s' = lf s -> stk' = respan lf stk -> shift_unary s' o stk' = respan lf (shift_unary s o stk).
Proof. intros -> ->. unfold shift_unary. now destruct stk as [|[] ]. Qed.
Lemma shift_binop_l s s' o stk stk' : s' = lf s -> stk' = respan lf stk -> shift_binop s' o stk' = respan lf (shift_binop s o stk).
Proof. intros -> ->. unfold shift_binop. rewrite reduce_l. now destruct (reduce _ stk). Qed.
Lemma top_expr_l stk : top_expr (respan lf stk) = top_expr stk.
Proof. now destruct stk as [|[] ]. Qed.
End Pure.
Lemma rel_exprid {L : lenv} t t' : trel t t' -> (match t' with TIdent _ k => kw_expr_ident k | _ => false end) = (match t with TIdent _ k => kw_expr_ident k | _ => false end).
Proof. intros [_ H]. destruct t; cbn in H; try (now subst t'). destruct H as (v' & -> & _). reflexivity. Qed.
Ltac lrw ::= rewrite ?reduce_l, ?top_expr_l; try match goal with H : trel ?t ?t' |- context [kw_expr_ident] => is_var t; is_var t'; rewrite (rel_exprid t t' H) end.
Ltac lhook ::= lazymatch goal with
  | |- shift_expr _ _ = respan lf (shift_expr _ _) => apply shift_expr_l; solve [lsame]
  | |- shift_unary _ _ _ = respan lf (shift_unary _ _ _) => apply shift_unary_l; solve [lsame]
  | |- shift_binop _ _ _ = respan lf (shift_binop _ _ _) => apply shift_binop_l; solve [lsame]
  | H : forall _ _ _ _, _ = respan lf _ |- _ = respan lf (_ ?a ?b ?c ?d) => exact (H a b c d)
  | H : forall _ _ _, _ = respan lf _ |- _ = respan lf (_ ?a ?b ?c) => exact (H a b c)
  | H : forall _, _ = respan lf _ |- _ = respan lf (_ ?a) => exact (H a)
  | |- Some _ = Some _ => apply (f_equal Some); solve [lsame]
  end.

#[export] Hint Transparent stack : lspec.
#[export] Hint Extern 1 (trel _ _) => (split; [assumption|cbn [respelled]; first [reflexivity | eexists; split; [reflexivity|first [left; reflexivity | right; assumption] ] ] ]) : lspec.
Ltac lplain := lazymatch goal with H : plain ?t |- @lcase ?L0 = false => destruct H as [_ H]; destruct (@lcase L0); [discriminate (H eq_refl)|reflexivity] end.
Section R.
Context {L : lenv}.
Variable r : recs.
Context {K : rrel r}.
Lemma parse_expression_outer_l : pr rm (parse_expression_outer r) (parse_expression_outer r).
Proof. unfold parse_expression_outer. lgo. Qed.
Hint Resolve parse_expression_outer_l : lspec.
Lemma parse_expression_paren_l : pr rm (parse_expression_paren r) (parse_expression_paren r).
Proof. unfold parse_expression_paren. lgo. Qed.
Hint Resolve parse_expression_paren_l : lspec.
Lemma function_of_l (t t' : tok) (sp sp' : span) : trel t t' -> sp' = respan lf sp -> pr rm (function_of t sp) (function_of t' sp').
Proof. intros Ht ->. unfold function_of. lgo. Qed.
Hint Resolve function_of_l : lspec.
Lemma parse_function_l (t t' : tok) (sp sp' : span) : trel t t' -> sp' = respan lf sp -> pr rm (parse_function r t sp) (parse_function r t' sp').
Proof. intros Ht ->. unfold parse_function. lgo. Qed.
Hint Resolve parse_function_l : lspec.
Lemma pop_lhs_l (stk stk' : stack) (msg : string) : stk' = respan lf stk -> pr rm (pop_lhs stk msg) (pop_lhs stk' msg).
Proof. intros ->. unfold pop_lhs. lgo. Qed.
Hint Resolve pop_lhs_l : lspec.
Lemma parse_in_list_l : pr rm (parse_in_list r) (parse_in_list r).
Proof. unfold parse_in_list. lgo. Qed.
Hint Resolve parse_in_list_l : lspec.
Lemma step_in_l (stk stk' : stack) : stk' = respan lf stk -> pr rm (step_in r stk) (step_in r stk').
Proof. intros ->. unfold step_in. lgo. Qed.
Hint Resolve step_in_l : lspec.
Lemma step_is_l (stk stk' : stack) : stk' = respan lf stk -> pr rm (step_is stk) (step_is stk').
Proof. intros ->. unfold step_is. lgo. Qed.
Hint Resolve step_is_l : lspec.
Lemma step_not_l (stk stk' : stack) : stk' = respan lf stk -> pr rm (step_not r stk) (step_not r stk').
Proof. intros ->. unfold step_not. lgo. Qed.
Hint Resolve step_not_l : lspec.
Lemma interval_parts_l parts (s s' : span) : s' = lf s -> pr rm (interval_parts s parts) (interval_parts s' parts).
Proof. intros ->. induction parts as [|p ps IH]; cbn [interval_parts]; lgo. Qed.
Hint Resolve interval_parts_l : lspec.
Lemma consume_time_unit_l : pr rm consume_time_unit consume_time_unit.
Proof. unfold consume_time_unit. lgo. Qed.
Hint Resolve consume_time_unit_l : lspec.
Lemma step_interval_l (stk stk' : stack) : stk' = respan lf stk -> pr rm (step_interval r stk) (step_interval r stk').
Proof. intros ->. unfold step_interval. lgo. Qed.
Hint Resolve step_interval_l : lspec.
Lemma step_timestamp_l (c : span -> time_unit * span -> expr -> expr -> expr) (stk stk' : stack) :
  (forall s u e1 e2, c (lf s) (respan lf u) (respan lf e1) (respan lf e2) = respan lf (c s u e1 e2)) -> stk' = respan lf stk -> pr rm (step_timestamp r c stk) (step_timestamp r c stk').
Proof. intros H ->. unfold step_timestamp. lgo. Qed.
Hint Extern 1 (pr rm (step_timestamp _ _ _) _) => (apply step_timestamp_l; solve [intros; reflexivity | assumption | lspec | lsame]) : lspec.
Lemma step_cast_l (stk stk' : stack) : stk' = respan lf stk -> pr rm (step_cast r stk) (step_cast r stk').
Proof. intros ->. unfold step_cast. lgo. Qed.
Hint Resolve step_cast_l : lspec.
Lemma step_aggregate_l k (c : span -> option span -> expr -> expr) (stk stk' : stack) :
  (forall s u e, c (lf s) (respan lf u) (respan lf e) = respan lf (c s u e)) -> stk' = respan lf stk -> pr rm (step_aggregate r k c stk) (step_aggregate r k c stk').
Proof. intros H ->. unfold step_aggregate. lgo. Qed.
Hint Extern 1 (pr rm (step_aggregate _ _ _ _) _) => (apply step_aggregate_l; solve [intros; reflexivity | assumption | lspec | lsame]) : lspec.
Lemma step_extract_l (stk stk' : stack) : stk' = respan lf stk -> pr rm (step_extract r stk) (step_extract r stk').
Proof. intros ->. unfold step_extract. lgo. Qed.
Hint Resolve step_extract_l : lspec.
Lemma parse_id_parts_l n (first first' : idpart) : first' = respan lf first -> pr rm (parse_id_parts n first) (parse_id_parts n first').
Proof. intros ->. unfold parse_id_parts. lgo. Qed.
Hint Resolve parse_id_parts_l : lspec.
Lemma step_word_l (t t' : tok) (stk stk' : stack) : trel t t' -> stk' = respan lf stk -> pr rm (step_word r t stk) (step_word r t' stk').
Proof. intros Ht ->. unfold step_word. lgo. Qed.
Hint Resolve step_word_l : lspec.
Lemma parse_whens_l : pr rm (parse_whens r) (parse_whens r).
Proof. unfold parse_whens. lgo. Qed.
Hint Resolve parse_whens_l : lspec.
Lemma step_case_l (stk stk' : stack) : stk' = respan lf stk -> pr rm (step_case r stk) (step_case r stk').
Proof. intros ->. unfold step_case. lgo. Qed.
Hint Resolve step_case_l : lspec.
Lemma step_variable_l (stk stk' : stack) : lcase = false -> stk' = respan lf stk -> pr rm (step_variable stk) (step_variable stk').
Proof. intros Hc ->. unfold step_variable. lgo. Qed.
Hint Extern 1 (pr rm (step_variable _) _) => (apply step_variable_l; [lplain|lspec]) : lspec.
Lemma step_arg_l (c : argref -> expr) p (stk stk' : stack) :
  (forall s, c (respan lf s) = respan lf (c s)) -> pr rm p p -> stk' = respan lf stk -> pr rm (step_arg c p stk) (step_arg c p stk').
Proof. intros H P ->. unfold step_arg. lgo. Qed.
Hint Extern 1 (pr rm (step_arg _ _ _) _) => (apply step_arg_l; solve [intros; reflexivity | assumption | lspec | lsame]) : lspec.
Lemma bin_l (o o' : binop) (stk stk' : stack) : o' = respan lf o -> stk' = respan lf stk -> pr rm (bin o stk) (bin o' stk').
Proof. intros -> ->. unfold bin. lgo. Qed.
Hint Resolve bin_l : lspec.
Lemma un_l (o o' : unop) (stk stk' : stack) : o' = respan lf o -> stk' = respan lf stk -> pr rm (un o stk) (un o' stk').
Proof. intros -> ->. unfold un. lgo. Qed.
Hint Resolve un_l : lspec.
Lemma some__l A (I : Respan A) (p p' : prog A) : pr rm p p' -> pr rm (some_ p) (some_ p').
Proof. intros P. unfold some_. lgo. Qed.
Hint Extern 1 (pr rm (some_ _) _) => (apply some__l; lspec) : lspec.
Lemma step_tail_l (t t' : tok) (stk stk' : stack) : trel t t' -> stk' = respan lf stk -> pr rm (step_tail r t stk) (step_tail r t' stk').
Proof. intros Ht ->. unfold step_tail. lgo. all: first [discriminate | apply some__l, step_variable_l; [lplain|reflexivity] ]. Qed.
Hint Resolve step_tail_l : lspec.
Lemma step_primary_l (t t' : tok) (stk stk' : stack) : trel t t' -> stk' = respan lf stk -> pr rm (step_primary r t stk) (step_primary r t' stk').
Proof. intros Ht ->. unfold step_primary. lgo. Qed.
Hint Resolve step_primary_l : lspec.
Lemma expr_step_l (inner : bool) (stk stk' : stack) : stk' = respan lf stk -> pr rm (expr_step r inner stk) (expr_step r inner stk').
Proof. intros ->. unfold expr_step. lgo. Qed.
Hint Resolve expr_step_l : lspec.
Lemma parse_expression_l (inner : bool) : pr rm (parse_expression r inner) (parse_expression r inner).
Proof. unfold parse_expression. lgo. Qed.
Hint Resolve parse_expression_l : lspec.
End R.
#[export] Hint Resolve parse_expression_outer_l parse_expression_paren_l function_of_l parse_function_l pop_lhs_l parse_in_list_l step_in_l step_is_l step_not_l interval_parts_l consume_time_unit_l step_interval_l step_cast_l step_extract_l parse_id_parts_l step_word_l parse_whens_l step_case_l bin_l un_l step_tail_l step_primary_l expr_step_l parse_expression_l : lspec.
