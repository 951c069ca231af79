(** The recursion budget does not matter: a program with a larger budget does the same unless
    the smaller budget was used up. *)
From Verif Require Export RunFacts Api.
From Coq Require Import Lia.
Local Open Scope string_scope.
Local Open Scope list_scope.

(** [le p p']: [p'] is [p] with some [OutOfFuel] replaced. *)
Inductive le : forall A : Type, prog A -> prog A -> Prop :=
| le_fuel A (p : prog A) : le A OutOfFuel p
| le_same A (p : prog A) : le A p p
| le_op A X (o : op X) (k k' : X -> prog A) : (forall x, le A (k x) (k' x)) -> le A (Op o k) (Op o k')
| le_try A X (p p' : prog X) (k k' : option X -> prog A) : le X p p' -> (forall x, le A (k x) (k' x)) -> le A (Try p k) (Try p' k').
Arguments le {A} p p'.
Theorem le_run A (p p' : prog A) : le p p' -> forall st, run p st <> RFuel -> run p' st = run p st.
Proof.
  induction 1 as [A p|A p|A X o k k' _ IH|A X p p' k k' _ IHp _ IH]; intros st; cbn [run]; auto.
  - congruence.
  - destruct (exec o st); auto.
  - intros F. assert (G : run p st <> RFuel) by (intros E; now rewrite E in F). rewrite (IHp st G). destruct (run p st); auto.
Qed.
Lemma le_bind A B (p p' : prog A) (k k' : A -> prog B) : le p p' -> (forall a, le (k a) (k' a)) -> le (bind p k) (bind p' k').
Proof.
  intros H Hk. induction H as [A p|A p|A X o f f' _ IH|A X p p' f f' L _ _ IH]; cbn [bind]; try (constructor; now auto).
  induction p as [A a|A|A w|A|A X o f IH|A X p IHp f IH]; cbn [bind]; auto; try constructor; auto. apply le_same.
Qed.
Lemma le_loop S A n n' (b b' : S -> prog (S + A)) : n <= n' -> (forall s, le (b s) (b' s)) -> forall s, le (loop n b s) (loop n' b' s).
Proof.
  intros L H. revert n' L. induction n as [|n IH]; intros n' L s; cbn [loop]; [constructor|]. destruct n' as [|n']; [lia|]. cbn [loop].
  apply le_bind; [apply H|]. intros [s'|a]; [apply IH; lia|constructor].
Qed.
Lemma le_loop_acc S n n' (b b' : S -> prog (S * ctl)) : n <= n' -> (forall s, le (b s) (b' s)) -> forall s, le (loop_acc n b s) (loop_acc n' b' s).
Proof.
  intros L H. revert n' L. induction n as [|n IH]; intros n' L s; cbn [loop_acc]; [constructor|]. destruct n' as [|n']; [lia|]. cbn [loop_acc].
  apply le_try; [apply H|]. intros [[s' []]|]; try constructor. apply IH. lia.
Qed.
(** Larger budgets. *)
Record rle (r r' : recs) : Prop := mkRle {
  rl_n : r_n r <= r_n r';
  rl_expr : forall b, le (r_expr r b) (r_expr r' b);
  rl_compound : le (r_compound r) (r_compound r');
  rl_stmt : le (r_stmt r) (r_stmt r') }.
Create HintDb fuel discriminated.
#[export] Hint Constants Opaque : fuel.
#[export] Hint Variables Opaque : fuel.
#[export] Hint Resolve rl_n rl_expr rl_compound rl_stmt : fuel.
Ltac mono :=
  cbv beta zeta;
  first
  [ lazymatch goal with |- le ?p ?p => apply le_same end
  | solve [auto with fuel nocore]
  | lazymatch goal with
    | |- le (bind _ _) (bind _ _) => apply le_bind; [mono|intros ?; mono]
    | |- le (Try _ _) (Try _ _) => apply le_try; [mono|intros ?; mono]
    | |- le (loop _ _ _) (loop _ _ _) => apply le_loop; [solve [auto with fuel]|intros ?; mono]
    | |- le (loop_acc _ _ _) (loop_acc _ _ _) => apply le_loop_acc; [solve [auto with fuel]|intros ?; mono]
    | |- le (match ?x with _ => _ end) _ => destruct x; mono
    end
  ].
Lemma le_recovered A (d : A) e f (p p' : prog A) : le p p' -> le (recovered d e f p) (recovered d e f p').
Proof. intros H. unfold recovered. mono. Qed.
Lemma le_recovered_acc A e f (p p' : prog (A * bool)) : le p p' -> le (recovered_acc e f p) (recovered_acc e f p').
Proof. intros H. unfold recovered_acc. mono. Qed.
Lemma le_consume_string n n' : n <= n' -> le (consume_string n) (consume_string n').
Proof. intros H. unfold consume_string. mono. Qed.
Lemma le_sep_list A n n' (p p' : prog A) : n <= n' -> le p p' -> le (sep_list n p) (sep_list n' p').
Proof. intros H1 H2. unfold sep_list. mono. Qed.
Lemma le_sep_list_recovered A n n' e (p p' : prog A) : n <= n' -> le p p' -> le (sep_list_recovered n e p) (sep_list_recovered n' e p').
Proof. intros H1 H2. unfold sep_list_recovered. apply le_recovered_acc. mono. Qed.
Lemma le_recovered_list A n n' (p p' : prog A) : n <= n' -> le p p' -> le (recovered_list n p) (recovered_list n' p').
Proof. intros H1 H2. unfold recovered_list. apply le_loop; [exact H1|]. intros l. apply le_bind; [apply le_recovered; mono|]. intros a. mono. Qed.
Lemma le_recovered_list2 A n n' (p p' : prog A) : n <= n' -> le p p' -> le (recovered_list2 n p) (recovered_list2 n' p').
Proof. intros H1 H2. unfold recovered_list2. apply le_loop; [exact H1|]. intros l. apply le_bind; [apply le_recovered; mono|]. intros a. mono. Qed.
Lemma le_pmap A B (f : A -> B) (p p' : prog A) : le p p' -> le (pmap f p) (pmap f p').
Proof. intros H. unfold pmap. mono. Qed.
Lemma le_some A (p p' : prog A) : le p p' -> le (some_ p) (some_ p').
Proof. intros H. unfold some_. mono. Qed.
Ltac mono2 :=
  cbv beta zeta;
  first
  [ lazymatch goal with |- le ?p ?p => apply le_same end
  | solve [auto with fuel nocore]
  | lazymatch goal with
    | |- le (bind _ _) (bind _ _) => apply le_bind; [mono2|intros ?; mono2]
    | |- le (Try _ _) (Try _ _) => apply le_try; [mono2|intros ?; mono2]
    | |- le (loop _ _ _) (loop _ _ _) => apply le_loop; [solve [auto with fuel]|intros ?; mono2]
    | |- le (loop_acc _ _ _) (loop_acc _ _ _) => apply le_loop_acc; [solve [auto with fuel]|intros ?; mono2]
    | |- le (recovered _ _ _ _) _ => apply le_recovered; mono2
    | |- le (recovered_acc _ _ _) _ => apply le_recovered_acc; mono2
    | |- le (consume_string _) _ => apply le_consume_string; solve [auto with fuel]
    | |- le (sep_list _ _) _ => apply le_sep_list; [solve [auto with fuel]|mono2]
    | |- le (sep_list_recovered _ _ _) _ => apply le_sep_list_recovered; [solve [auto with fuel]|mono2]
    | |- le (recovered_list _ _) _ => apply le_recovered_list; [solve [auto with fuel]|mono2]
    | |- le (recovered_list2 _ _) _ => apply le_recovered_list2; [solve [auto with fuel]|mono2]
    | |- le (pmap _ _) _ => apply le_pmap; mono2
    | |- le (some_ _) _ => apply le_some; mono2
    | |- le (match ?x with _ => _ end) _ => destruct x; mono2
    end
  ].
(** DataType.v *)
Lemma le_parse_qualified_name n n'  : n <= n' -> le (parse_qualified_name n) (parse_qualified_name n').
Proof. intros H. unfold parse_qualified_name. mono2. Qed.
#[export] Hint Resolve le_parse_qualified_name : fuel.
Lemma le_parse_enum_set_values n n'  : n <= n' -> le (parse_enum_set_values n) (parse_enum_set_values n').
Proof. intros H. unfold parse_enum_set_values. mono2. Qed.
#[export] Hint Resolve le_parse_enum_set_values : fuel.
Lemma le_parse_type n n'  : n <= n' -> le (parse_type n) (parse_type n').
Proof. intros H. unfold parse_type. mono2. Qed.
#[export] Hint Resolve le_parse_type : fuel.
Lemma le_paren_expr r r'  : rle r r' -> le (paren_expr r) (paren_expr r').
Proof. intros H. unfold paren_expr. mono2. Qed.
#[export] Hint Resolve le_paren_expr : fuel.
Lemma le_parse_property r r' (no_as : bool) : rle r r' -> le (parse_property r no_as) (parse_property r' no_as).
Proof. intros H. unfold parse_property. mono2. Qed.
#[export] Hint Resolve le_parse_property : fuel.
Lemma le_parse_data_type r r' (no_as : bool) : rle r r' -> le (parse_data_type r no_as) (parse_data_type r' no_as).
Proof. intros H. unfold parse_data_type. mono2. Qed.
#[export] Hint Resolve le_parse_data_type : fuel.
(** Select.v *)
Lemma le_parse_select_expr r r'  : rle r r' -> le (parse_select_expr r) (parse_select_expr r').
Proof. intros H. unfold parse_select_expr. mono2. Qed.
#[export] Hint Resolve le_parse_select_expr : fuel.
Lemma le_parse_index_hint n n'  : n <= n' -> le (parse_index_hint n) (parse_index_hint n').
Proof. intros H. unfold parse_index_hint. mono2. Qed.
#[export] Hint Resolve le_parse_index_hint : fuel.
Lemma le_parse_table_reference_inner r r'  : rle r r' -> le (parse_table_reference_inner r) (parse_table_reference_inner r').
Proof. intros H. unfold parse_table_reference_inner. mono2. Qed.
#[export] Hint Resolve le_parse_table_reference_inner : fuel.
Lemma le_parse_join_spec r r'  : rle r r' -> le (parse_join_spec r) (parse_join_spec r').
Proof. intros H. unfold parse_join_spec. mono2. Qed.
#[export] Hint Resolve le_parse_join_spec : fuel.
Lemma le_parse_table_reference r r'  : rle r r' -> le (parse_table_reference r) (parse_table_reference r').
Proof. intros H. unfold parse_table_reference. mono2. Qed.
#[export] Hint Resolve le_parse_table_reference : fuel.
Lemma le_parse_flags n n' (tbl : list (string * string)) : n <= n' -> le (parse_flags n tbl) (parse_flags n' tbl).
Proof. intros H. unfold parse_flags. mono2. Qed.
#[export] Hint Resolve le_parse_flags : fuel.
Lemma le_opt_where r r' (k : string) : rle r r' -> le (opt_where r k) (opt_where r' k).
Proof. intros H. unfold opt_where. mono2. Qed.
#[export] Hint Resolve le_opt_where : fuel.
Lemma le_parse_order_elements r r'  : rle r r' -> le (parse_order_elements r) (parse_order_elements r').
Proof. intros H. unfold parse_order_elements. mono2. Qed.
#[export] Hint Resolve le_parse_order_elements : fuel.
Lemma le_parse_order_by r r'  : rle r r' -> le (parse_order_by r) (parse_order_by r').
Proof. intros H. unfold parse_order_by. mono2. Qed.
#[export] Hint Resolve le_parse_order_by : fuel.
Lemma le_parse_limit r r'  : rle r r' -> le (parse_limit r) (parse_limit r').
Proof. intros H. unfold parse_limit. mono2. Qed.
#[export] Hint Resolve le_parse_limit : fuel.
Lemma le_parse_locking r r'  : rle r r' -> le (parse_locking r) (parse_locking r').
Proof. intros H. unfold parse_locking. mono2. Qed.
#[export] Hint Resolve le_parse_locking : fuel.
Lemma le_parse_select r r'  : rle r r' -> le (parse_select r) (parse_select r').
Proof. intros H. unfold parse_select. mono2. Qed.
#[export] Hint Resolve le_parse_select : fuel.
Lemma le_parse_compound_query_bottom r r'  : rle r r' -> le (parse_compound_query_bottom r) (parse_compound_query_bottom r').
Proof. intros H. unfold parse_compound_query_bottom. mono2. Qed.
#[export] Hint Resolve le_parse_compound_query_bottom : fuel.
Lemma le_parse_unions r r'  : rle r r' -> le (parse_unions r) (parse_unions r').
Proof. intros H. unfold parse_unions. mono2. Qed.
#[export] Hint Resolve le_parse_unions : fuel.
Lemma le_parse_compound_query r r'  : rle r r' -> le (parse_compound_query r) (parse_compound_query r').
Proof. intros H. unfold parse_compound_query. mono2. Qed.
#[export] Hint Resolve le_parse_compound_query : fuel.
(** Expr.v *)
Lemma le_parse_expression_outer r r'  : rle r r' -> le (parse_expression_outer r) (parse_expression_outer r').
Proof. intros H. unfold parse_expression_outer. mono2. Qed.
#[export] Hint Resolve le_parse_expression_outer : fuel.
Lemma le_parse_expression_paren r r'  : rle r r' -> le (parse_expression_paren r) (parse_expression_paren r').
Proof. intros H. unfold parse_expression_paren. mono2. Qed.
#[export] Hint Resolve le_parse_expression_paren : fuel.
Lemma le_parse_function r r' (t : tok) (sp : span) : rle r r' -> le (parse_function r t sp) (parse_function r' t sp).
Proof. intros H. unfold parse_function. mono2. Qed.
#[export] Hint Resolve le_parse_function : fuel.
Lemma le_parse_in_list r r'  : rle r r' -> le (parse_in_list r) (parse_in_list r').
Proof. intros H. unfold parse_in_list. mono2. Qed.
#[export] Hint Resolve le_parse_in_list : fuel.
Lemma le_step_in r r' (stk : stack) : rle r r' -> le (step_in r stk) (step_in r' stk).
Proof. intros H. unfold step_in. mono2. Qed.
#[export] Hint Resolve le_step_in : fuel.
Lemma le_step_not r r' (stk : stack) : rle r r' -> le (step_not r stk) (step_not r' stk).
Proof. intros H. unfold step_not. mono2. Qed.
#[export] Hint Resolve le_step_not : fuel.
Lemma le_step_interval r r' (stk : stack) : rle r r' -> le (step_interval r stk) (step_interval r' stk).
Proof. intros H. unfold step_interval. mono2. Qed.
#[export] Hint Resolve le_step_interval : fuel.
Lemma le_step_timestamp r r' (c : span -> time_unit * span -> expr -> expr -> expr) (stk : stack) : rle r r' -> le (step_timestamp r c stk) (step_timestamp r' c stk).
Proof. intros H. unfold step_timestamp. mono2. Qed.
#[export] Hint Resolve le_step_timestamp : fuel.
Lemma le_step_cast r r' (stk : stack) : rle r r' -> le (step_cast r stk) (step_cast r' stk).
Proof. intros H. unfold step_cast. mono2. Qed.
#[export] Hint Resolve le_step_cast : fuel.
Lemma le_step_aggregate r r' (k : string) (c : span -> option span -> expr -> expr) (stk : stack) : rle r r' -> le (step_aggregate r k c stk) (step_aggregate r' k c stk).
Proof. intros H. unfold step_aggregate. mono2. Qed.
#[export] Hint Resolve le_step_aggregate : fuel.
Lemma le_step_extract r r' (stk : stack) : rle r r' -> le (step_extract r stk) (step_extract r' stk).
Proof. intros H. unfold step_extract. mono2. Qed.
#[export] Hint Resolve le_step_extract : fuel.
Lemma le_parse_id_parts n n' (first : idpart) : n <= n' -> le (parse_id_parts n first) (parse_id_parts n' first).
Proof. intros H. unfold parse_id_parts. mono2. Qed.
#[export] Hint Resolve le_parse_id_parts : fuel.
Lemma le_step_word r r' (t : tok) (stk : stack) : rle r r' -> le (step_word r t stk) (step_word r' t stk).
Proof. intros H. unfold step_word. mono2. Qed.
#[export] Hint Resolve le_step_word : fuel.
Lemma le_parse_whens r r'  : rle r r' -> le (parse_whens r) (parse_whens r').
Proof. intros H. unfold parse_whens. mono2. Qed.
#[export] Hint Resolve le_parse_whens : fuel.
Lemma le_step_case r r' (stk : stack) : rle r r' -> le (step_case r stk) (step_case r' stk).
Proof. intros H. unfold step_case. mono2. Qed.
#[export] Hint Resolve le_step_case : fuel.
Lemma le_step_tail r r' (t : tok) (stk : stack) : rle r r' -> le (step_tail r t stk) (step_tail r' t stk).
Proof. intros H. unfold step_tail. mono2. Qed.
#[export] Hint Resolve le_step_tail : fuel.
Lemma le_step_primary r r' (t : tok) (stk : stack) : rle r r' -> le (step_primary r t stk) (step_primary r' t stk).
Proof. intros H. unfold step_primary. mono2. Qed.
#[export] Hint Resolve le_step_primary : fuel.
Lemma le_expr_step r r' (inner : bool) (stk : stack) : rle r r' -> le (expr_step r inner stk) (expr_step r' inner stk).
Proof. intros H. unfold expr_step. mono2. Qed.
#[export] Hint Resolve le_expr_step : fuel.
Lemma le_parse_expression r r' (inner : bool) : rle r r' -> le (parse_expression r inner) (parse_expression r' inner).
Proof. intros H. unfold parse_expression. mono2. Qed.
#[export] Hint Resolve le_parse_expression : fuel.
(** Create.v *)
Lemma le_skip_identifiers n n'  : n <= n' -> le (skip_identifiers n) (skip_identifiers n').
Proof. intros H. unfold skip_identifiers. mono2. Qed.
#[export] Hint Resolve le_skip_identifiers : fuel.
Lemma le_parse_create_constraint_definition n n'  : n <= n' -> le (parse_create_constraint_definition n) (parse_create_constraint_definition n').
Proof. intros H. unfold parse_create_constraint_definition. mono2. Qed.
#[export] Hint Resolve le_parse_create_constraint_definition : fuel.
Lemma le_parse_create_definition r r'  : rle r r' -> le (parse_create_definition r) (parse_create_definition r').
Proof. intros H. unfold parse_create_definition. mono2. Qed.
#[export] Hint Resolve le_parse_create_definition : fuel.
Lemma le_parse_create_view r r' (create_span : span) (opts : list create_option) : rle r r' -> le (parse_create_view r create_span opts) (parse_create_view r' create_span opts).
Proof. intros H. unfold parse_create_view. mono2. Qed.
#[export] Hint Resolve le_parse_create_view : fuel.
Lemma le_parse_function_param r r'  : rle r r' -> le (parse_function_param r) (parse_function_param r').
Proof. intros H. unfold parse_function_param. mono2. Qed.
#[export] Hint Resolve le_parse_function_param : fuel.
Lemma le_skip_dollar_body n n'  : n <= n' -> le (skip_dollar_body n) (skip_dollar_body n').
Proof. intros H. unfold skip_dollar_body. mono2. Qed.
#[export] Hint Resolve le_skip_dollar_body : fuel.
Lemma le_parse_characteristic n n'  : n <= n' -> le (parse_characteristic n) (parse_characteristic n').
Proof. intros H. unfold parse_characteristic. mono2. Qed.
#[export] Hint Resolve le_parse_characteristic : fuel.
Lemma le_parse_create_function r r' (create_span : span) (opts : list create_option) : rle r r' -> le (parse_create_function r create_span opts) (parse_create_function r' create_span opts).
Proof. intros H. unfold parse_create_function. mono2. Qed.
#[export] Hint Resolve le_parse_create_function : fuel.
Lemma le_parse_create_trigger r r' (create_span : span) (opts : list create_option) : rle r r' -> le (parse_create_trigger r create_span opts) (parse_create_trigger r' create_span opts).
Proof. intros H. unfold parse_create_trigger. mono2. Qed.
#[export] Hint Resolve le_parse_create_trigger : fuel.
Lemma le_parse_create_type r r' (create_span : span) (opts : list create_option) : rle r r' -> le (parse_create_type r create_span opts) (parse_create_type r' create_span opts).
Proof. intros H. unfold parse_create_type. mono2. Qed.
#[export] Hint Resolve le_parse_create_type : fuel.
Lemma le_parse_create_index r r' (create_span : span) (opts : list create_option) : rle r r' -> le (parse_create_index r create_span opts) (parse_create_index r' create_span opts).
Proof. intros H. unfold parse_create_index. mono2. Qed.
#[export] Hint Resolve le_parse_create_index : fuel.
Lemma le_create_table_head n n'  : n <= n' -> le (create_table_head n) (create_table_head n').
Proof. intros H. unfold create_table_head. mono2. Qed.
#[export] Hint Resolve le_create_table_head : fuel.
Lemma le_parse_table_option n n' (l : list table_option) : n <= n' -> le (parse_table_option n l) (parse_table_option n' l).
Proof. intros H. unfold parse_table_option. mono2. Qed.
#[export] Hint Resolve le_parse_table_option : fuel.
Lemma le_parse_create_table r r' (create_span : span) (opts : list create_option) : rle r r' -> le (parse_create_table r create_span opts) (parse_create_table r' create_span opts).
Proof. intros H. unfold parse_create_table. mono2. Qed.
#[export] Hint Resolve le_parse_create_table : fuel.
Lemma le_parse_create r r'  : rle r r' -> le (parse_create r) (parse_create r').
Proof. intros H. unfold parse_create. mono2. Qed.
#[export] Hint Resolve le_parse_create : fuel.
(** Alter.v *)
Lemma le_parse_index_options n n' (l : list index_option) : n <= n' -> le (parse_index_options n l) (parse_index_options n' l).
Proof. intros H. unfold parse_index_options. mono2. Qed.
#[export] Hint Resolve le_parse_index_options : fuel.
Lemma le_parse_index_cols n n'  : n <= n' -> le (parse_index_cols n) (parse_index_cols n').
Proof. intros H. unfold parse_index_cols. mono2. Qed.
#[export] Hint Resolve le_parse_index_cols : fuel.
Lemma le_parse_cols n n'  : n <= n' -> le (parse_cols n) (parse_cols n').
Proof. intros H. unfold parse_cols. mono2. Qed.
#[export] Hint Resolve le_parse_cols : fuel.
Lemma le_parse_add_foreign_key n n' (add_span : span) (constraint : option (span * option ident)) : n <= n' -> le (parse_add_foreign_key n add_span constraint) (parse_add_foreign_key n' add_span constraint).
Proof. intros H. unfold parse_add_foreign_key. mono2. Qed.
#[export] Hint Resolve le_parse_add_foreign_key : fuel.
Lemma le_parse_add_index n n' (add_span : span) (constraint : option (span * option ident)) : n <= n' -> le (parse_add_index n add_span constraint) (parse_add_index n' add_span constraint).
Proof. intros H. unfold parse_add_index. mono2. Qed.
#[export] Hint Resolve le_parse_add_index : fuel.
Lemma le_parse_add_column r r' (add_span : span) : rle r r' -> le (parse_add_column r add_span) (parse_add_column r' add_span).
Proof. intros H. unfold parse_add_column. mono2. Qed.
#[export] Hint Resolve le_parse_add_column : fuel.
Lemma le_parse_add_alter_specification r r'  : rle r r' -> le (parse_add_alter_specification r) (parse_add_alter_specification r').
Proof. intros H. unfold parse_add_alter_specification. mono2. Qed.
#[export] Hint Resolve le_parse_add_alter_specification : fuel.
Lemma le_parse_alter_column_action r r'  : rle r r' -> le (parse_alter_column_action r) (parse_alter_column_action r').
Proof. intros H. unfold parse_alter_column_action. mono2. Qed.
#[export] Hint Resolve le_parse_alter_column_action : fuel.
Lemma le_parse_alter_specification r r'  : rle r r' -> le (parse_alter_specification r) (parse_alter_specification r').
Proof. intros H. unfold parse_alter_specification. mono2. Qed.
#[export] Hint Resolve le_parse_alter_specification : fuel.
Lemma le_parse_alter_table r r' (alter_span : span) (online ignore : option span) : rle r r' -> le (parse_alter_table r alter_span online ignore) (parse_alter_table r' alter_span online ignore).
Proof. intros H. unfold parse_alter_table. mono2. Qed.
#[export] Hint Resolve le_parse_alter_table : fuel.
Lemma le_parse_alter r r'  : rle r r' -> le (parse_alter r) (parse_alter r').
Proof. intros H. unfold parse_alter. mono2. Qed.
#[export] Hint Resolve le_parse_alter : fuel.
(** Drop.v *)
Lemma le_parse_drop_q n n' (drop_span : span) (k : string) : n <= n' -> le (parse_drop_q n drop_span k) (parse_drop_q n' drop_span k).
Proof. intros H. unfold parse_drop_q. mono2. Qed.
#[export] Hint Resolve le_parse_drop_q : fuel.
Lemma le_parse_drop_index n n' (drop_span : span) : n <= n' -> le (parse_drop_index n drop_span) (parse_drop_index n' drop_span).
Proof. intros H. unfold parse_drop_index. mono2. Qed.
#[export] Hint Resolve le_parse_drop_index : fuel.
Lemma le_parse_drop n n'  : n <= n' -> le (parse_drop n) (parse_drop n').
Proof. intros H. unfold parse_drop. mono2. Qed.
#[export] Hint Resolve le_parse_drop : fuel.
Lemma le_parse_truncate_table n n'  : n <= n' -> le (parse_truncate_table n) (parse_truncate_table n').
Proof. intros H. unfold parse_truncate_table. mono2. Qed.
#[export] Hint Resolve le_parse_truncate_table : fuel.
Lemma le_parse_rename_table n n'  : n <= n' -> le (parse_rename_table n) (parse_rename_table n').
Proof. intros H. unfold parse_rename_table. mono2. Qed.
#[export] Hint Resolve le_parse_rename_table : fuel.
(** Dml.v *)
Lemma le_parse_returning r r'  : rle r r' -> le (parse_returning r) (parse_returning r').
Proof. intros H. unfold parse_returning. mono2. Qed.
#[export] Hint Resolve le_parse_returning : fuel.
Lemma le_parse_delete r r'  : rle r r' -> le (parse_delete r) (parse_delete r').
Proof. intros H. unfold parse_delete. mono2. Qed.
#[export] Hint Resolve le_parse_delete : fuel.
Lemma le_parse_column_path n n'  : n <= n' -> le (parse_column_path n) (parse_column_path n').
Proof. intros H. unfold parse_column_path. mono2. Qed.
#[export] Hint Resolve le_parse_column_path : fuel.
Lemma le_parse_update r r'  : rle r r' -> le (parse_update r) (parse_update r').
Proof. intros H. unfold parse_update. mono2. Qed.
#[export] Hint Resolve le_parse_update : fuel.
Lemma le_parse_set_pair r r'  : rle r r' -> le (parse_set_pair r) (parse_set_pair r').
Proof. intros H. unfold parse_set_pair. mono2. Qed.
#[export] Hint Resolve le_parse_set_pair : fuel.
Lemma le_parse_insert_source r r' (columns : list ident) : rle r r' -> le (parse_insert_source r columns) (parse_insert_source r' columns).
Proof. intros H. unfold parse_insert_source. mono2. Qed.
#[export] Hint Resolve le_parse_insert_source : fuel.
Lemma le_parse_conflict_target n n'  : n <= n' -> le (parse_conflict_target n) (parse_conflict_target n').
Proof. intros H. unfold parse_conflict_target. mono2. Qed.
#[export] Hint Resolve le_parse_conflict_target : fuel.
Lemma le_parse_conflict_action r r'  : rle r r' -> le (parse_conflict_action r) (parse_conflict_action r').
Proof. intros H. unfold parse_conflict_action. mono2. Qed.
#[export] Hint Resolve le_parse_conflict_action : fuel.
Lemma le_parse_insert_on r r'  : rle r r' -> le (parse_insert_on r) (parse_insert_on r').
Proof. intros H. unfold parse_insert_on. mono2. Qed.
#[export] Hint Resolve le_parse_insert_on : fuel.
Lemma le_parse_insert_replace r r'  : rle r r' -> le (parse_insert_replace r) (parse_insert_replace r').
Proof. intros H. unfold parse_insert_replace. mono2. Qed.
#[export] Hint Resolve le_parse_insert_replace : fuel.
(** Statement.v *)
Lemma le_parse_with_block r r'  : rle r r' -> le (parse_with_block r) (parse_with_block r').
Proof. intros H. unfold parse_with_block. mono2. Qed.
#[export] Hint Resolve le_parse_with_block : fuel.
Lemma le_parse_with_query r r'  : rle r r' -> le (parse_with_query r) (parse_with_query r').
Proof. intros H. unfold parse_with_query. mono2. Qed.
#[export] Hint Resolve le_parse_with_query : fuel.
Lemma le_parse_set r r'  : rle r r' -> le (parse_set r) (parse_set r').
Proof. intros H. unfold parse_set. mono2. Qed.
#[export] Hint Resolve le_parse_set : fuel.
Lemma le_skip_tokens n n' (w : tok) : n <= n' -> le (skip_tokens n w) (skip_tokens n' w).
Proof. intros H. unfold skip_tokens. mono2. Qed.
#[export] Hint Resolve le_skip_tokens : fuel.
Lemma le_parse_statement_list_inner r r'  : rle r r' -> le (parse_statement_list_inner r) (parse_statement_list_inner r').
Proof. intros H. unfold parse_statement_list_inner. mono2. Qed.
#[export] Hint Resolve le_parse_statement_list_inner : fuel.
Lemma le_parse_statement_list r r'  : rle r r' -> le (parse_statement_list r) (parse_statement_list r').
Proof. intros H. unfold parse_statement_list. mono2. Qed.
#[export] Hint Resolve le_parse_statement_list : fuel.
Lemma le_parse_statement_list_local r r'  : rle r r' -> le (parse_statement_list_local r) (parse_statement_list_local r').
Proof. intros H. unfold parse_statement_list_local. mono2. Qed.
#[export] Hint Resolve le_parse_statement_list_local : fuel.
Lemma le_parse_exception_handlers r r'  : rle r r' -> le (parse_exception_handlers r) (parse_exception_handlers r').
Proof. intros H. unfold parse_exception_handlers. mono2. Qed.
#[export] Hint Resolve le_parse_exception_handlers : fuel.
Lemma le_parse_block r r'  : rle r r' -> le (parse_block r) (parse_block r').
Proof. intros H. unfold parse_block. mono2. Qed.
#[export] Hint Resolve le_parse_block : fuel.
Lemma le_parse_if_condition r r' (elseif_span : option span) : rle r r' -> le (parse_if_condition r elseif_span) (parse_if_condition r' elseif_span).
Proof. intros H. unfold parse_if_condition. mono2. Qed.
#[export] Hint Resolve le_parse_if_condition : fuel.
Lemma le_parse_else r r'  : rle r r' -> le (parse_else r) (parse_else r').
Proof. intros H. unfold parse_else. mono2. Qed.
#[export] Hint Resolve le_parse_else : fuel.
Lemma le_parse_if r r'  : rle r r' -> le (parse_if r) (parse_if r').
Proof. intros H. unfold parse_if. mono2. Qed.
#[export] Hint Resolve le_parse_if : fuel.
Lemma le_parse_return r r'  : rle r r' -> le (parse_return r) (parse_return r').
Proof. intros H. unfold parse_return. mono2. Qed.
#[export] Hint Resolve le_parse_return : fuel.
Lemma le_parse_signal_set r r'  : rle r r' -> le (parse_signal_set r) (parse_signal_set r').
Proof. intros H. unfold parse_signal_set. mono2. Qed.
#[export] Hint Resolve le_parse_signal_set : fuel.
Lemma le_parse_signal r r'  : rle r r' -> le (parse_signal r) (parse_signal r').
Proof. intros H. unfold parse_signal. mono2. Qed.
#[export] Hint Resolve le_parse_signal : fuel.
Lemma le_parse_do r r'  : rle r r' -> le (parse_do r) (parse_do r').
Proof. intros H. unfold parse_do. mono2. Qed.
#[export] Hint Resolve le_parse_do : fuel.
Lemma le_parse_when_statement r r'  : rle r r' -> le (parse_when_statement r) (parse_when_statement r').
Proof. intros H. unfold parse_when_statement. mono2. Qed.
#[export] Hint Resolve le_parse_when_statement : fuel.
Lemma le_parse_case_statement r r'  : rle r r' -> le (parse_case_statement r) (parse_case_statement r').
Proof. intros H. unfold parse_case_statement. mono2. Qed.
#[export] Hint Resolve le_parse_case_statement : fuel.
Lemma le_parse_copy_statement n n'  : n <= n' -> le (parse_copy_statement n) (parse_copy_statement n').
Proof. intros H. unfold parse_copy_statement. mono2. Qed.
#[export] Hint Resolve le_parse_copy_statement : fuel.
Lemma le_parse_statement r r'  : rle r r' -> le (parse_statement r) (parse_statement r').
Proof. intros H. unfold parse_statement. mono2. Qed.
#[export] Hint Resolve le_parse_statement : fuel.
Lemma le_skip_delimiters n n'  : n <= n' -> le (skip_delimiters n) (skip_delimiters n').
Proof. intros H. unfold skip_delimiters. mono2. Qed.
#[export] Hint Resolve le_skip_delimiters : fuel.
Lemma le_recover_statement n n'  : n <= n' -> le (recover_statement n) (recover_statement n').
Proof. intros H. unfold recover_statement. mono2. Qed.
#[export] Hint Resolve le_recover_statement : fuel.
Lemma le_parse_statements_step r r' (ans : list stmt) : rle r r' -> le (parse_statements_step r ans) (parse_statements_step r' ans).
Proof. intros H. unfold parse_statements_step. mono2. Qed.
#[export] Hint Resolve le_parse_statements_step : fuel.
Lemma le_parse_statements_loop r r'  : rle r r' -> le (parse_statements_loop r) (parse_statements_loop r').
Proof. intros H. unfold parse_statements_loop. mono2. Qed.
#[export] Hint Resolve le_parse_statements_loop : fuel.

(** ** The recursion *)
Lemma rle_knot n n' : n <= n' -> rle (knot n) (knot n').
Proof.
  revert n'. induction n as [|n IH]; intros n' L.
  - constructor; try (intros; apply le_fuel). destruct n' as [|n']; [apply Nat.le_refl|]. change (1 <= S (S n')). lia.
  - destruct n' as [|n']; [lia|]. specialize (IH n' ltac:(lia)).
    constructor; [change (S (S n) <= S (S n')); lia|intros b; exact (le_parse_expression _ _ _ IH)|exact (le_parse_compound_query _ _ IH)|exact (le_parse_statement _ _ IH)].
Qed.
Theorem budget_statements n n' src isrc issues o : n <= n' -> parse_statements_n n src isrc issues o <> NoFuel ->
  parse_statements_n n' src isrc issues o = parse_statements_n n src isrc issues o.
Proof.
  intros L. unfold parse_statements_n. destruct (parser_new src isrc issues o) as [st _x|w|]; [|intros; exact eq_refl|intros; exact eq_refl]. intros F.
  rewrite (le_run _ _ _ (le_parse_statements_loop _ _ (rle_knot _ _ L)) st); [reflexivity|]. intros E. now rewrite E in F.
Qed.
Lemma le_body r r' : rle r r' -> le (parse_statement_body r) (parse_statement_body r').
Proof. intros H. unfold parse_statement_body. mono2. Qed.
Theorem budget_statement n n' src isrc issues o : n <= n' -> parse_statement_n n src isrc issues o <> NoFuel ->
  parse_statement_n n' src isrc issues o = parse_statement_n n src isrc issues o.
Proof.
  intros L. unfold parse_statement_n. destruct (parser_new src isrc issues o) as [st _x|w|]; [|intros; exact eq_refl|intros; exact eq_refl]. intros F.
  rewrite (le_run _ _ _ (le_body _ _ (rle_knot _ _ L)) st); [reflexivity|]. intros E. now rewrite E in F.
Qed.
