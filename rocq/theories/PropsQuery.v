(** C34, C41, C42 and the grammar of queries at the level of sources. *)
From Verif Require Export GrammarTop.
Local Open Scope string_scope.
Local Open Scope list_scope.

(** ** C09 for whole sources *)
(** A source whose tokens are a query of the grammar of [GrammarSpec.v] is accepted without any
    issue and the query is returned; operator chains are grouped as [grouped] says. *)
Theorem C09_query_source o src issues ts q : written o src ts -> query_is o ts q ->
  parse_statement_api src issues o = Returns (Some q) issues.
Proof. apply query_source. Qed.
(** The grammar is unambiguous for tokens that are those of a source. *)
Theorem C09_query_unique o src ts q q' : written o src ts -> query_is o ts q -> query_is o ts q' -> q = q'.
Proof. intros T H H'. pose proof (query_source o src [] ts q T H) as E. rewrite (query_source o src [] ts q' T H') in E. now injection E. Qed.

(** ** C34 *)
(** The SELECT [s] with the LIMIT clause [l] and the locking clause [k]. *)
Definition with_limit (s : select expr stmt) (l : limit expr) (k : option locking) : select expr stmt :=
  mkSelect (sl_select s) (sl_flags s) (sl_exprs s) (sl_from s) (sl_tables s) (sl_where s) (sl_group_by s) (sl_having s) (sl_window s) (sl_order_by s) (Some l) k.
Lemma add_limit o hd sel ls l ks k : select_is o WithFrom hd sel -> sl_limit sel = None -> sl_locking sel = None -> limit_is o ls (Some l) -> locking_is o ks k ->
  select_is o WithFrom (hd ++ ls ++ ks) (with_limit sel l k).
Proof.
  intros H N N' L K. inversion H; subst. cbn in N, N'. subst lm lk. match goal with X : limit_is _ ?x None |- _ => inversion X; subst end.
  match goal with X : locking_is _ ?x None |- _ => inversion X; subst end.
  rewrite !app_nil_r. repeat (rewrite <- ?app_assoc; cbn [app]). now apply sl_with_from.
Qed.
Section C34.
Variables (o : reading) (src : text) (issues : list issue).
(** A SELECT ... FROM ... without LIMIT and locking clause, the word LIMIT, two expressions and a locking clause (which may be absent). *)
Variables (hd : tks) (sel : select expr stmt) (t : tok) (s s' : span) (ts1 ts2 : tks) (a b : expr) (ks : tks) (k : option locking).
Hypothesis Hsel : select_is o WithFrom hd sel.
Hypothesis Hnone : sl_limit sel = None /\ sl_locking sel = None.
Hypothesis Hkw : kw_tok o "LIMIT" t.
Hypothesis Ha : expr_is o true ts1 a.
Hypothesis Hb : expr_is o true ts2 b.
Hypothesis Hk : locking_is o ks k.
(** The three parts of a LIMIT clause are: the span of the word, the offset, the count. *)
Theorem C34_count : written o src (hd ++ (t, s) :: ts1 ++ ks) ->
  parse_statement_api src issues o = Returns (Some (SSelect (with_limit sel (s, None, a) k))) issues.
Proof.
  intros T. apply (query_source o src issues (hd ++ ((t, s) :: ts1) ++ ks)); [repeat (rewrite <- ?app_assoc; cbn [app]); exact T|].
  eapply qu_one. apply bt_select. apply add_limit; try apply Hnone; auto. now apply lm_count.
Qed.
Theorem C34_comma : written o src (hd ++ (t, s) :: ts1 ++ (TComma, s') :: ts2 ++ ks) ->
  parse_statement_api src issues o = Returns (Some (SSelect (with_limit sel (s, Some a, b) k))) issues.
Proof.
  intros T. apply (query_source o src issues (hd ++ ((t, s) :: ts1 ++ (TComma, s') :: ts2) ++ ks)); [repeat (rewrite <- ?app_assoc; cbn [app]); exact T|].
  eapply qu_one. apply bt_select. apply add_limit; try apply Hnone; auto. now apply lm_comma.
Qed.
Theorem C34_offset v : written o src (hd ++ (t, s) :: ts1 ++ (TIdent v (KW "OFFSET"), s') :: ts2 ++ ks) ->
  parse_statement_api src issues o = Returns (Some (SSelect (with_limit sel (s, Some b, a) k))) issues.
Proof.
  intros T. apply (query_source o src issues (hd ++ ((t, s) :: ts1 ++ (TIdent v (KW "OFFSET"), s') :: ts2) ++ ks)); [repeat (rewrite <- ?app_assoc; cbn [app]); exact T|].
  eapply qu_one. apply bt_select. apply add_limit; try apply Hnone; auto. now apply lm_offset.
Qed.
End C34.

(** ** C42 *)
(** The tokens of [a.b.c]: components with their spans, and the spans of the periods. *)
Fixpoint name_tokens (prefix : list (tok * span * span)) (last : tok * span) : tks :=
  match prefix with
  | [] => [last]
  | (t, s, d) :: r => (t, s) :: (TPeriod, d) :: name_tokens r last
  end.
(** The text of a name token. *)
Definition tok_word (t : tok) : text := match t with TIdent v _ | TDoubleQuotedString v => v | _ => [] end.
Definition is_name (o : reading) (t : tok) : Prop := name_tok o t (tok_word t).
Lemma name_word o t v : name_tok o t v -> v = tok_word t.
Proof. intros [(k & -> & _)|[[-> _]|[-> _]]]; reflexivity. Qed.
(** The components of the result: in order, each with the span of its token and of the period after it. *)
Definition name_result (prefix : list (tok * span * span)) (last : tok * span) : qname :=
  mkQName (map (fun x => (mkIdent (tok_word (fst (fst x))) (snd (fst x)), snd x)) prefix) (mkIdent (tok_word (fst last)) (snd last)).
Lemma name_tokens_is o prefix last : Forall (fun x => is_name o (fst (fst x))) prefix -> is_name o (fst last) ->
  qname_is o (name_tokens prefix last) (name_result prefix last).
Proof.
  intros H L. destruct last as [t s]. induction H as [|[[t' s'] d] r N H IH]; cbn.
  - now apply qn_one.
  - apply qn_more; [exact N|exact IH].
Qed.
(** Wherever a qualified name is read ([y] is the token after it). *)
Theorem C42_components o prefix last n y rest : Forall (fun x => is_name o (fst (fst x))) prefix -> is_name o (fst last) ->
  fst y <> TPeriod -> 2 * length prefix < n ->
  parses o (parse_qualified_name n) (name_tokens prefix last ++ y :: rest) (name_result prefix last) (y :: rest).
Proof.
  intros H L Y N. apply pa_qname; [now apply name_tokens_is| |].
  - destruct (fst y); try reflexivity. congruence.
  - assert (E : length (name_tokens prefix last) = S (2 * length prefix)); [|lia]. clear. induction prefix as [|[[? ?] ?] r IH]; cbn [name_tokens length]; lia.
Qed.
(** A source of the form SELECT ... FROM a.b.c. *)
Theorem C42_source o src issues t s es l t' s' prefix last : kw_tok o "SELECT" t -> selection_is o es l -> kw_tok o "FROM" t' ->
  Forall (fun x => is_name o (fst (fst x))) prefix -> is_name o (fst last) -> (exists v k, hd_tok (name_tokens prefix last) = TIdent v k) ->
  written o src ((t, s) :: es ++ (t', s') :: name_tokens prefix last) ->
  exists sel, parse_statement_api src issues o = Returns (Some (SSelect sel)) issues /\
    sl_tables sel = Some [TRTable (name_result prefix last) None None []].
Proof.
  intros K E K' P L H T. eexists. split.
  - apply (query_source o src issues ((t, s) :: es ++ (t', s') :: name_tokens prefix last)).
    { exact T. }
    eapply qu_one. apply bt_select. replace (name_tokens prefix last) with ((name_tokens prefix last ++ [] ++ []) ++ [] ++ [] ++ [] ++ [] ++ [] ++ [] ++ []) by now rewrite !app_nil_r.
    apply (sl_with_from o t s [] [] es l t' s'); auto; try constructor.
    eapply fr_one. apply tj_one. apply ta_name; [now apply name_tokens_is|exact H|constructor|constructor].
  - reflexivity.
Qed.

(** ** C41 *)
(** A branch after the first one: the word UNION, ALL / DISTINCT, the tokens and the query. *)
Record branch := mkBranch { br_tok : tok; br_span : span; br_type_toks : tks; br_type : union_type; br_toks : tks; br_query : stmt; br_end : ending }.
Definition branch_ok (o : reading) (b : branch) : Prop :=
  kw_tok o "UNION" (br_tok b) /\ union_type_is o (br_type_toks b) (br_type b) /\ bottom_is o (br_end b) (br_toks b) (br_query b).
Definition branch_tokens (b : branch) : tks := (br_tok b, br_span b) :: br_type_toks b ++ br_toks b.
Definition branch_result (b : branch) : union_with stmt := mkUnionWith (br_span b) (br_type b) (br_query b).
Lemma branches_are o bs b : Forall (branch_ok o) (bs ++ [b]) ->
  unions_are o (br_end b) (concat (map branch_tokens (bs ++ [b]))) (map branch_result (bs ++ [b])).
Proof.
  induction bs as [|c bs IH]; cbn [app map concat]; intros H; inversion H as [|? ? (K & U & B) H']; subst.
  - rewrite app_nil_r. now apply un_one.
  - unfold branch_tokens at 1. cbn [app]. rewrite <- app_assoc. eapply un_more; eauto.
Qed.
(** What holds of chains of UNION: the branches are returned in order, each with its own
    qualifier; ORDER BY and LIMIT after the last branch belong to the whole if the last branch
    is parenthesised or has no FROM.
    Missing: ORDER BY and LIMIT after a last branch with FROM ([C41_refuted]); EXCEPT and
    INTERSECT are not part of the language. *)
Theorem C41_union_partial o src issues e ts q bs b obs ord ls lim :
  bottom_is o e ts q -> Forall (branch_ok o) (bs ++ [b]) -> order_is o obs ord -> limit_is o ls lim -> (br_end b = WithFrom -> obs = [] /\ ls = []) ->
  written o src (ts ++ concat (map branch_tokens (bs ++ [b])) ++ obs ++ ls) ->
  parse_statement_api src issues o = Returns (Some (SUnion (mkUnion q (map branch_result (bs ++ [b])) ord lim))) issues.
Proof.
  intros Q B O L W T. eapply query_source; [|eapply qu_union; [exact Q|apply branches_are; exact B|exact O|exact L|exact W]].
  exact T.
Qed.
(** ORDER BY and LIMIT after a last branch with FROM become part of that branch, not of the
    whole: for all branches. *)
Theorem C41_refuted o src issues e ts q bs b sel obs ord ls lim :
  bottom_is o e ts q -> Forall (branch_ok o) (bs ++ [b]) -> br_end b = WithFrom -> br_query b = SSelect sel ->
  sl_order_by sel = None -> sl_limit sel = None -> sl_locking sel = None -> order_is o obs ord -> limit_is o ls lim ->
  written o src (ts ++ concat (map branch_tokens (bs ++ [b])) ++ obs ++ ls) ->
  parse_statement_api src issues o = Returns (Some (SUnion (mkUnion q (map branch_result bs ++
     [mkUnionWith (br_span b) (br_type b) (SSelect (mkSelect (sl_select sel) (sl_flags sel) (sl_exprs sel) (sl_from sel) (sl_tables sel) (sl_where sel)
        (sl_group_by sel) (sl_having sel) (sl_window sel) ord lim None))]) None None))) issues.
Proof.
  intros Q B We Bq On Ln Kn O L T. destruct b as [ut us ty_ts ty bts bq be]. cbn [br_end br_query br_span br_type] in *. subst be bq.
  apply Forall_app in B as [Bs B]. inversion B as [|? ? (K & U & Bo) _]; subst. cbn in K, U, Bo. inversion Bo as [? ? ? S|]; subst. clear Bo B.
  assert (S' : select_is o WithFrom (bts ++ obs ++ ls) (mkSelect (sl_select sel) (sl_flags sel) (sl_exprs sel) (sl_from sel) (sl_tables sel) (sl_where sel)
        (sl_group_by sel) (sl_having sel) (sl_window sel) ord lim None)).
  { inversion S; subst. cbn in On, Ln, Kn. subst. repeat match goal with X : locking_is _ ?x None |- _ => inversion X; clear X; subst | X : limit_is _ ?x None |- _ => inversion X; clear X; subst | X : order_is _ ?x None |- _ => inversion X; clear X; subst end.
    cbn [sl_select sl_flags sl_exprs sl_from sl_tables sl_where sl_group_by sl_having sl_window sl_locking].
    rewrite !app_nil_r. repeat (rewrite <- ?app_assoc; cbn [app]). replace (obs ++ ls) with (obs ++ ls ++ []) by now rewrite app_nil_r. apply sl_with_from; auto; constructor. }
  set (b' := mkBranch ut us ty_ts ty (bts ++ obs ++ ls) (SSelect (mkSelect (sl_select sel) (sl_flags sel) (sl_exprs sel) (sl_from sel) (sl_tables sel) (sl_where sel)
        (sl_group_by sel) (sl_having sel) (sl_window sel) ord lim None)) WithFrom).
  rewrite <- (map_app branch_result bs [b']) || change (map branch_result bs ++ [_]) with (map branch_result bs ++ map branch_result [b']). rewrite <- map_app.
  assert (T' : written o src (ts ++ concat (map branch_tokens (bs ++ [b'])) ++ [] ++ [])).
  { revert T. rewrite !map_app, !concat_app. cbn [map concat branch_tokens br_tok br_span br_type_toks br_toks app b']. rewrite !app_nil_r. repeat (rewrite <- ?app_assoc; cbn [app]). auto. }
  eapply (C41_union_partial o src issues e ts q bs b' [] None [] None); try exact T'; auto; try constructor; auto.
  - apply Forall_app. split; [exact Bs|]. constructor; [|constructor]. split; [exact K|]. split; [exact U|]. now apply bt_select.
Qed.

(** ** Concrete sources that meet the hypotheses *)
Lemma ex_leaf o i ts e : operand_is o ts e -> expr_is o i ts e.
Proof.
  intros H. change e with (to_expr (Leaf e)). apply ex_tree; [|grouped_tac]. cbn [frontier]. rewrite <- (app_nil_r ts). apply it_operand; [exact H|apply it_end].
Qed.
Ltac by_tokens := apply written_plain; [vm_compute; reflexivity|now left].
Ltac tok_kw := eexists; split; [reflexivity|now intros].
Ltac plain_name := left; eexists; split; [reflexivity|split; [reflexivity|split; [discriminate|reflexivity]]].
Ltac plain_word := right; split; [reflexivity|]; left; reflexivity.
Ltac leaf_name := apply ex_leaf, od_name; [plain_word|constructor].
Ltac leaf_int := apply ex_leaf; eapply (od_integer _ _ _); vm_compute; discriminate.
(** [a + 1] *)
Lemma sum_is o t v s s1 w s2 : word_tok o t v -> (digits_value w <= u64_max)%N ->
  expr_is o false [(t, s); (TPlus, s1); (TInteger w, s2)] (EBinary Ast.Add s1 (EIdentifier (mkParts [PName (mkIdent v s)])) (EInteger (digits_value w, s2))).
Proof.
  intros W L. change (EBinary Ast.Add s1 (EIdentifier (mkParts [PName (mkIdent v s)])) (EInteger (digits_value w, s2)))
    with (to_expr (TBin Ast.Add s1 (Leaf (EIdentifier (mkParts [PName (mkIdent v s)]))) (Leaf (EInteger (digits_value w, s2))))).
  apply ex_tree; [|grouped_tac]. cbn [frontier app]. apply (it_operand o false [(t, s)] _ [(TPlus, s1); (TInteger w, s2)]); [apply od_name; [exact W|constructor]|].
  apply it_binary; [reflexivity|reflexivity|]. apply (it_operand o false [(TInteger w, s2)] _ []); [now apply od_integer|apply it_end].
Qed.
Lemma table_leaf o t v s k : t = TIdent v k -> name_tok o t v -> from_is o [(t, s)] [TRTable (mkQName [] (mkIdent v s)) None None []].
Proof.
  intros E N. apply (fr_one o EndTable). apply tj_one. change [(t, s)] with ([(t, s)] ++ [] ++ []). apply ta_name; [now apply qn_one|eauto|constructor|constructor].
Qed.
(** [SELECT a + 1 FROM t] *)
Lemma sample_select o t s tl v sl s1 w s2 t' s' tt_ vt st k :
  kw_tok o "SELECT" t -> word_tok o tl v -> (digits_value w <= u64_max)%N -> kw_tok o "FROM" t' -> tt_ = TIdent vt k -> name_tok o tt_ vt ->
  exists sel, select_is o WithFrom [(t, s); (tl, sl); (TPlus, s1); (TInteger w, s2); (t', s'); (tt_, st)] sel /\ (sl_limit sel = None /\ sl_locking sel = None) /\ sl_order_by sel = None.
Proof.
  intros K W L K' E N. eexists. split.
  - apply (sl_with_from o t s [] [] [(tl, sl); (TPlus, s1); (TInteger w, s2)] [mkSelectExpr (EBinary Ast.Add s1 (EIdentifier (mkParts [PName (mkIdent v sl)])) (EInteger (digits_value w, s2))) None]
      t' s' [(tt_, st)] [TRTable (mkQName [] (mkIdent vt st)) None None []] [] None [] None [] None [] None [] None [] None [] None); try (constructor; fail); auto.
    + apply sn_one, se_plain. now apply sum_is.
    + now apply (table_leaf o tt_ vt st k).
  - auto.
Qed.
Example C34_applies : exists hd sel t s s' ts1 ts2 a b ks k,
  let o := unnumbered default_options in let src := txt "SELECT a + 1 FROM t LIMIT 3, (b + 1)" in
  select_is o WithFrom hd sel /\ (sl_limit sel = None /\ sl_locking sel = None) /\ kw_tok o "LIMIT" t /\ expr_is o true ts1 a /\ expr_is o true ts2 b /\ locking_is o ks k /\
  written o src (hd ++ (t, s) :: ts1 ++ (TComma, s') :: ts2 ++ ks).
Proof.
  destruct (sample_select (unnumbered default_options) (TIdent (txt "SELECT") (KW "SELECT")) (0, 6) (TIdent (txt "a") NOT_A_KEYWORD) (txt "a") (7, 8) (9, 10) (txt "1") (11, 12)
     (TIdent (txt "FROM") (KW "FROM")) (13, 17) (TIdent (txt "t") NOT_A_KEYWORD) (txt "t") (18, 19) NOT_A_KEYWORD) as (sel & S & L & _);
    try (plain_name || plain_word || tok_kw || reflexivity || (vm_compute; discriminate)).
  eexists _, sel, (TIdent (txt "LIMIT") (KW "LIMIT")), _, _, _, _, _, _, _, _. cbn zeta. split; [exact S|]. split; [exact L|]. split; [tok_kw|].
  split; [eapply ex_leaf, (od_integer _ (txt "3") (26, 27)); vm_compute; discriminate|].
  split; [eapply ex_leaf, (od_paren _ (29, 30) _ (35, 36)), (sum_is _ (TIdent (txt "b") NOT_A_KEYWORD) (txt "b") (30, 31) (32, 33) (txt "1") (34, 35)); [plain_word|vm_compute; discriminate]|].
  split; [apply lk_none|].
  by_tokens.
Qed.
Example C34_offset_applies : exists hd sel t s s' ts1 ts2 a b v ks k,
  let o := unnumbered default_options in let src := txt "SELECT a + 1 FROM t LIMIT 3 OFFSET (b + 1) FOR UPDATE OF t NOWAIT" in
  select_is o WithFrom hd sel /\ (sl_limit sel = None /\ sl_locking sel = None) /\ kw_tok o "LIMIT" t /\ expr_is o true ts1 a /\ expr_is o true ts2 b /\ locking_is o ks k /\
  written o src (hd ++ (t, s) :: ts1 ++ (TIdent v (KW "OFFSET"), s') :: ts2 ++ ks).
Proof.
  destruct (sample_select (unnumbered default_options) (TIdent (txt "SELECT") (KW "SELECT")) (0, 6) (TIdent (txt "a") NOT_A_KEYWORD) (txt "a") (7, 8) (9, 10) (txt "1") (11, 12)
     (TIdent (txt "FROM") (KW "FROM")) (13, 17) (TIdent (txt "t") NOT_A_KEYWORD) (txt "t") (18, 19) NOT_A_KEYWORD) as (sel & S & L & _);
    try (plain_name || plain_word || tok_kw || reflexivity || (vm_compute; discriminate)).
  eexists _, sel, (TIdent (txt "LIMIT") (KW "LIMIT")), _, _, _, _, _, _, _, _, _. cbn zeta. split; [exact S|]. split; [exact L|]. split; [tok_kw|].
  split; [eapply ex_leaf, (od_integer _ (txt "3") (26, 27)); vm_compute; discriminate|].
  split; [eapply ex_leaf, (od_paren _ (35, 36) _ (41, 42)), (sum_is _ (TIdent (txt "b") NOT_A_KEYWORD) (txt "b") (36, 37) (38, 39) (txt "1") (40, 41)); [plain_word|vm_compute; discriminate]|].
  split. { eapply (lk_some _ (TIdent (txt "FOR") (KW "FOR")) (43, 46)); [tok_kw|eapply (sh_update _ (TIdent (txt "UPDATE") (KW "UPDATE")) (47, 53)); tok_kw| |].
    - eapply (of_some _ (TIdent (txt "OF") (KW "OF")) (54, 56)); [tok_kw|]. apply cm_one. eapply (id_name _ (TIdent (txt "t") NOT_A_KEYWORD) (txt "t") (57, 58)). plain_name.
    - eapply (wt_nowait _ (TIdent (txt "NOWAIT") (KW "NOWAIT")) (59, 65)). tok_kw. }
  by_tokens.
Qed.
Example C42_applies : exists t s es l t' s' prefix last,
  let o := unnumbered default_options in let src := txt "SELECT a + 1 FROM x.`y`.z" in
  kw_tok o "SELECT" t /\ selection_is o es l /\ kw_tok o "FROM" t' /\ Forall (fun x => is_name o (fst (fst x))) prefix /\ is_name o (fst last) /\
  (exists v k, hd_tok (name_tokens prefix last) = TIdent v k) /\ length prefix = 2 /\
  written o src ((t, s) :: es ++ (t', s') :: name_tokens prefix last).
Proof.
  eexists (TIdent (txt "SELECT") (KW "SELECT")), _, _, _, (TIdent (txt "FROM") (KW "FROM")), _,
    [(TIdent (txt "x") NOT_A_KEYWORD, (18, 19), (19, 20)); (TIdent (txt "y") QUOTED_IDENTIFIER, (20, 23), (23, 24))], (TIdent (txt "z") NOT_A_KEYWORD, (24, 25)). cbn zeta.
  split; [tok_kw|]. split; [eapply sn_one, se_plain, (sum_is _ (TIdent (txt "a") NOT_A_KEYWORD) (txt "a") (7, 8) (9, 10) (txt "1") (11, 12)); [plain_word|vm_compute; discriminate]|].
  split; [tok_kw|]. split; [constructor; [plain_name|constructor; [right; left; split; reflexivity|constructor]]|]. split; [plain_name|]. split; [cbn; eauto|]. split; [reflexivity|].
  by_tokens.
Qed.
(** A first branch in parentheses, UNION ALL with a SELECT without FROM; ORDER BY and LIMIT for the whole. *)
Example C41_applies : exists e ts q bs b obs ord ls lim,
  let o := unnumbered default_options in let src := txt "(SELECT a + 1 FROM t) UNION SELECT a + 1 FROM t UNION ALL SELECT a + 1 ORDER BY b DESC LIMIT 3" in
  bottom_is o e ts q /\ Forall (branch_ok o) (bs ++ [b]) /\ order_is o obs ord /\ limit_is o ls lim /\ (br_end b = WithFrom -> obs = [] /\ ls = []) /\
  length bs = 1 /\ br_type b <> UTDefault /\ ord <> None /\
  written o src (ts ++ concat (map branch_tokens (bs ++ [b])) ++ obs ++ ls).
Proof.
  destruct (sample_select (unnumbered default_options) (TIdent (txt "SELECT") (KW "SELECT")) (1, 7) (TIdent (txt "a") NOT_A_KEYWORD) (txt "a") (8, 9) (10, 11) (txt "1") (12, 13)
     (TIdent (txt "FROM") (KW "FROM")) (14, 18) (TIdent (txt "t") NOT_A_KEYWORD) (txt "t") (19, 20) NOT_A_KEYWORD) as (sel & S & L & _);
    try (plain_name || plain_word || tok_kw || reflexivity || (vm_compute; discriminate)).
  destruct (sample_select (unnumbered default_options) (TIdent (txt "SELECT") (KW "SELECT")) (28, 34) (TIdent (txt "a") NOT_A_KEYWORD) (txt "a") (35, 36) (37, 38) (txt "1") (39, 40)
     (TIdent (txt "FROM") (KW "FROM")) (41, 45) (TIdent (txt "t") NOT_A_KEYWORD) (txt "t") (46, 47) NOT_A_KEYWORD) as (sel' & S' & L' & _);
    try (plain_name || plain_word || tok_kw || reflexivity || (vm_compute; discriminate)).
  eexists Closed, _, _, [mkBranch (TIdent (txt "UNION") (KW "UNION")) (22, 27) [] UTDefault _ (SSelect sel') WithFrom],
    (mkBranch (TIdent (txt "UNION") (KW "UNION")) (48, 53) [(TIdent (txt "ALL") (KW "ALL"), (54, 57))] (UTAll (54, 57)) _ _ NoFrom), _, _, _, _. cbn zeta.
  split; [eapply (bt_paren _ (0, 1) _ (20, 21)); eapply qu_one; apply bt_select; exact S|].
  split. { constructor; [|constructor; [|constructor]].
    - split; [tok_kw|]. split; [constructor|]. apply bt_select. exact S'.
    - split; [tok_kw|]. split; [constructor; tok_kw|]. apply bt_select. eapply (sl_no_from _ (TIdent (txt "SELECT") (KW "SELECT")) (58, 64) [] []); [tok_kw|constructor|].
      eapply sn_one, se_plain, (sum_is _ (TIdent (txt "a") NOT_A_KEYWORD) (txt "a") (65, 66) (67, 68) (txt "1") (69, 70)); [plain_word|vm_compute; discriminate]. }
  split. { eapply (or_some _ (TIdent (txt "ORDER") (KW "ORDER")) (71, 76) (TIdent (txt "BY") (KW "BY")) (77, 79)); [tok_kw|tok_kw|].
    eapply so_one; [eapply ex_leaf, (od_name _ (TIdent (txt "b") NOT_A_KEYWORD) (txt "b") (80, 81)); [plain_word|constructor]|eapply (di_desc (txt "DESC") (82, 86))]. }
  split. { eapply (lm_count _ (TIdent (txt "LIMIT") (KW "LIMIT")) (87, 92)); [tok_kw|]. eapply ex_leaf, (od_integer _ (txt "3") (93, 94)); vm_compute; discriminate. }
  split; [discriminate|]. split; [reflexivity|]. split; [discriminate|]. split; [discriminate|]. by_tokens.
Qed.
(** A source for which trailing ORDER BY is not attached to the whole. *)
Example C41_refuted_applies : exists e ts q bs b sel obs ord ls lim,
  let o := unnumbered default_options in let src := txt "SELECT a + 1 UNION SELECT a + 1 FROM t ORDER BY b DESC LIMIT 3" in
  bottom_is o e ts q /\ Forall (branch_ok o) (bs ++ [b]) /\ br_end b = WithFrom /\ br_query b = SSelect sel /\
  sl_order_by sel = None /\ sl_limit sel = None /\ sl_locking sel = None /\ order_is o obs ord /\ limit_is o ls lim /\ ord <> None /\
  written o src (ts ++ concat (map branch_tokens (bs ++ [b])) ++ obs ++ ls).
Proof.
  destruct (sample_select (unnumbered default_options) (TIdent (txt "SELECT") (KW "SELECT")) (19, 25) (TIdent (txt "a") NOT_A_KEYWORD) (txt "a") (26, 27) (28, 29) (txt "1") (30, 31)
     (TIdent (txt "FROM") (KW "FROM")) (32, 36) (TIdent (txt "t") NOT_A_KEYWORD) (txt "t") (37, 38) NOT_A_KEYWORD) as (sel & S & L & O);
    try (plain_name || plain_word || tok_kw || reflexivity || (vm_compute; discriminate)).
  eexists NoFrom, _, _, [], (mkBranch (TIdent (txt "UNION") (KW "UNION")) (13, 18) [] UTDefault _ (SSelect sel) WithFrom), sel, _, _, _, _. cbn zeta.
  split. { apply bt_select. eapply (sl_no_from _ (TIdent (txt "SELECT") (KW "SELECT")) (0, 6) [] []); [tok_kw|constructor|].
    eapply sn_one, se_plain, (sum_is _ (TIdent (txt "a") NOT_A_KEYWORD) (txt "a") (7, 8) (9, 10) (txt "1") (11, 12)); [plain_word|vm_compute; discriminate]. }
  split. { constructor; [|constructor]. split; [tok_kw|]. split; [constructor|]. apply bt_select. exact S. }
  split; [reflexivity|]. split; [reflexivity|]. split; [exact O|]. split; [apply L|]. split; [apply L|].
  split. { eapply (or_some _ (TIdent (txt "ORDER") (KW "ORDER")) (39, 44) (TIdent (txt "BY") (KW "BY")) (45, 47)); [tok_kw|tok_kw|].
    eapply so_one; [eapply ex_leaf, (od_name _ (TIdent (txt "b") NOT_A_KEYWORD) (txt "b") (48, 49)); [plain_word|constructor]|eapply (di_desc (txt "DESC") (50, 54))]. }
  split. { eapply (lm_count _ (TIdent (txt "LIMIT") (KW "LIMIT")) (55, 60)); [tok_kw|]. eapply ex_leaf, (od_integer _ (txt "3") (61, 62)); vm_compute; discriminate. }
  split; [discriminate|]. by_tokens.
Qed.
