(** C46: the statements of [StmtSpec.v] and [GrammarStmt.v] are returned as they are written. *)
From Verif Require Export PropsScript.
Local Open Scope string_scope.
Local Open Scope list_scope.

(** ** C46 *)
(** A statement of the grammar is accepted, nothing is reported, and the AST is the one the
    grammar assigns to its tokens. *)
Theorem C46_statement : forall o src issues ts k x,
  written o src ts -> stmt_is o false k ts x ->
  parse_statement_api src issues o = Returns (Some x) issues.
Proof. intros. eapply statement_source; eauto. Qed.
(** Hence the grammar is not ambiguous: the tokens of a source have at most one AST. *)
Theorem C46_unique : forall o src ts k x k' y,
  written o src ts -> stmt_is o false k ts x -> stmt_is o false k' ts y -> x = y.
Proof.
  intros o src ts k x k' y T X Y. pose proof (C46_statement o src [] ts k x T X) as E. rewrite (C46_statement o src [] ts k' y T Y) in E. congruence.
Qed.

(** *** Examples *)
(** Derivations are built by giving the constructors; the tokens are then those of the source. *)
Ltac by_tokens := apply written_plain; [|now left]; cbn [app]; match goal with |- tokens ?s = _ => let v := eval vm_compute in (tokens s) in
  transitivity v; [vm_compute; reflexivity|reflexivity] end.
Ltac leaf_goal := match goal with |- ?G => let s := type of G in unify s Prop end; first [now tok_kw | now plain_name | now plain_word | (eexists; reflexivity) | (vm_compute; discriminate) | discriminate | reflexivity
  | (eexists _, _; reflexivity) | now (left; eexists; reflexivity) | now (right; eexists; reflexivity)].
Lemma ident_one o t v s : name_tok o t v -> commas (ident_is o) [(t, s)] [mkIdent v s].
Proof. intros. now apply cm_one, id_name. Qed.
Lemma name_expr o i t v s : word_tok o t v -> expr_is o i [(t, s)] (EIdentifier (mkParts [PName (mkIdent v s)])).
Proof. intros. apply ex_leaf, od_name; [assumption|constructor]. Qed.
Lemma int_expr o i w s : (digits_value w <= u64_max)%N -> expr_is o i [(TInteger w, s)] (EInteger (digits_value w, s)).
Proof. intros. now apply ex_leaf, od_integer. Qed.
(** INSERT with columns, rows and ON DUPLICATE KEY UPDATE. *)
Example C46_insert_applies : exists ts x,
  let o := unnumbered default_options in let src := txt "INSERT INTO t (a, b) VALUES (1, a + 1), (2, b) ON DUPLICATE KEY UPDATE a = b" in
  written o src ts /\ stmt_is o false false ts (SInsertReplace x).
Proof.
  eexists _, _. cbn zeta. apply and_comm. split.
  - apply si_simple, sm_insert. eapply (in_insert _ _ _ _ _ [] []); [apply iw_insert| | | | | | | |].
    + shelve. + constructor. + apply ow_some. shelve.
    + apply qn_one. shelve.
    + apply co_some. apply cm_more; [apply id_name; shelve|]. apply ident_one. shelve.
    + eapply sr_values; [left; shelve|]. apply cm_more.
      * apply ro_row. apply cm_more; [apply int_expr; shelve|]. apply cm_one. eapply sum_is; shelve.
      * apply cm_one, ro_row. apply cm_more; [apply int_expr; shelve|]. apply cm_one, name_expr. shelve.
    + apply io_duplicate; [reflexivity|shelve..|]. apply cm_one. apply pr_value'; [shelve|]. apply name_expr. shelve.
    + discriminate.
    + constructor.
  - by_tokens.
Unshelve. all: try leaf_goal.
Qed.
Lemma table_one o t v s k : t = TIdent v k -> name_tok o t v -> from_is o [(t, s)] [TRTable (mkQName [] (mkIdent v s)) None None []].
Proof. apply table_leaf. Qed.
(** A data-modifying WITH in PostgreSQL. *)
Example C46_with_applies : exists ts x,
  let o := unnumbered (mkOptions PostgreSQL ArgNone false false false) in let src := txt "WITH d AS (DELETE FROM t USING u WHERE a RETURNING a + 1), e AS (SELECT 2) UPDATE w SET w.a = 1, b = c WHERE b RETURNING b" in
  written o src ts /\ stmt_is o false false ts (SWithQuery x).
Proof.
  eexists _, _. cbn zeta. apply and_comm. split.
  - apply si_with; [reflexivity|shelve|eapply bl_more, bl_one| |].
    + eapply bk_is; [shelve|shelve| |]. 2: shelve. apply si_simple, sm_delete. eapply (de_from _ _ _ [] []); [shelve|constructor|shelve| | | |].
      * apply cm_one, qn_one. shelve.
      * apply us_some; [shelve|]. eapply table_one; shelve.
      * apply cd_some; [shelve|]. apply name_expr. shelve.
      * apply rt_some; [shelve|]. apply sn_one, se_plain. eapply sum_is; shelve.
    + eapply bk_is; [shelve|shelve| |]. 2: shelve. apply si_query. eapply qu_one, bt_select. eapply (sl_no_from _ _ _ [] []); [shelve|constructor|].
      apply sn_one, se_plain, int_expr. shelve.
    + apply si_simple, sm_update. eapply (up_set' _ _ _ [] []); [shelve|constructor| |shelve| | | |now right].
      * eapply table_one; shelve.
      * apply cm_more.
        -- eapply cl_value; [eapply pt_more, pt_one; shelve|]. apply int_expr. shelve.
        -- apply cm_one, cl_value; [apply pt_one; shelve|]. apply name_expr. shelve.
      * apply cd_some; [shelve|]. apply name_expr. shelve.
      * apply rt_some; [shelve|]. apply sn_one, se_plain. apply name_expr. shelve.
    + exact I.
  - by_tokens.
Unshelve. all: try leaf_goal. all: exact I.
Qed.
(** Other statements, in a script. *)
Example C46_script_applies : exists ts l,
  let o := unnumbered default_options in let src := txt "DROP TABLE IF EXISTS a.b, c; RENAME TABLE a TO b; SIGNAL SQLSTATE 45000 SET MESSAGE_TEXT = m; TRUNCATE t;" in
  written o src ts /\ script_is o (blen src, blen src) TSemiColon ts l [] /\ length l = 4.
Proof.
  eexists _, [_; _; _; _]. cbn zeta. assert (R : forall A B C : Prop, C -> B -> A -> A /\ B /\ C) by auto. apply R; clear R; [reflexivity| |].
  - eapply sc_stmt; [apply si_simple, sm_drop; eapply (dp_table _ _ _ [] _ _ _ _ _ _ _ []); [shelve|constructor|shelve| | |constructor|now left]|].
    { apply ie_some; shelve. }
    { apply cm_more; [apply qn_more; [shelve|apply qn_one; shelve]|apply cm_one, qn_one; shelve]. }
    eapply sc_stmt; [apply si_simple, sm_rename; eapply (rn_is _ _ _ [_]); [shelve|apply ow_some; shelve|]|].
    { apply cm_one, rd_is; [apply qn_one; shelve|shelve|apply qn_one; shelve]. }
    eapply sc_stmt; [apply si_simple, sm_signal; eapply (sg_is _ _ _ _ _ []); [shelve|shelve|constructor|apply int_expr; shelve|shelve|]|].
    { apply StmtSpec.ss_some; [shelve|]. apply cm_one. eapply (im_item _ "MESSAGE_TEXT" "MessageText"); [do 2 right; left; reflexivity|shelve|]. apply name_expr. shelve. }
    eapply sc_stmt; [apply si_simple, sm_truncate; eapply (tr_is _ _ _ []); [shelve|constructor|apply qn_one; shelve]|]. apply sc_end.
  - by_tokens.
Unshelve. all: try leaf_goal. all: intros; reflexivity.
Qed.
(** A query with a cast, aggregates, a window, an interval, hints, joins and locking. *)
Example C46_query_applies : exists ts q,
  let o := unnumbered default_options in
  let src := txt "SELECT CAST(a AS VARCHAR(10) NOT NULL), COUNT(DISTINCT b), 'x' ""y"", rn(a, 1) OVER (ORDER BY a DESC), INTERVAL '1:30' MINUTE_SECOND FROM t AS u USE INDEX (i) NATURAL LEFT JOIN w JOIN v USING a, b FOR UPDATE SKIP LOCKED" in
  written o src ts /\ query_is o ts q.
Proof.
  eexists _, _. cbn zeta. apply and_comm. split.
  - eapply qu_one, bt_select. eapply (sl_with_from _ _ _ [] [] _ _ _ _ _ _ [] None [] None [] None [] None [] None [] None);
      [shelve|constructor| |shelve| |constructor|constructor|constructor|constructor|constructor|constructor|].
    + apply sn_more; [apply se_plain, ex_leaf; eapply od_cast; [shelve|apply name_expr; shelve|shelve|eapply dy_is]|].
      * eapply (ba_sized _ "VARCHAR" "VarChar"); [do 10 right; left; reflexivity|shelve|apply owi_some, wi_is; shelve].
      * apply pp_last, pr_not_null; shelve.
      * apply sn_more; [apply se_plain, ex_leaf; eapply (od_aggregate _ "COUNT" ECount); [left; reflexivity|shelve|apply ow_some; shelve|apply name_expr; shelve]|].
        apply sn_more; [apply se_plain, ex_leaf, od_string, sg_string with (v := txt "x"); [apply (lt_single (txt "x"))|]; apply ms_more with (w := txt "y"); [apply (lt_double (txt "y"))|constructor]|].
        apply sn_more; [apply se_plain, ex_leaf; eapply (od_over _ (TIdent (txt "rn") NOT_A_KEYWORD) (FOther (txt "rn")));
           [eexists _, _; split; [reflexivity|left; auto]|apply ag_some, li_more; [apply name_expr; shelve|apply li_one, int_expr; shelve]|shelve|shelve|shelve|]|].
        { eapply so_one; [apply name_expr; shelve|apply di_desc with (v := txt "DESC")]. }
        apply sn_one, se_plain, ex_leaf. eapply od_interval; [shelve| |eexists; split; [|eexists; reflexivity]]; [|shelve].
        eapply iv_string; [apply sg_string with (v := txt "1:30"); [apply (lt_single (txt "1:30"))|constructor]|].
        cbn [ss_value]. apply (nt_more (txt "1") 1%N 58%N (txt "30") [30%N]); [|left; reflexivity|apply nt_one];
          (eexists; split; [left; reflexivity|split; [discriminate|split; [reflexivity|split; [reflexivity|reflexivity]]]]).
    + eapply fr_one. eapply (tj_join _ EndTable); [eapply (tj_join _ EndTable); [apply tj_one, ta_name; [apply qn_one; shelve|shelve|apply al_as; shelve|]| | | |apply on_none]| | | |].
      * apply hs_cons with (ts' := []); [reflexivity| |constructor].
        eapply (hi_is _ "USE" "Use" _ _ "INDEX" "Index" _ _ []); [left; reflexivity|shelve|left; reflexivity|shelve|constructor|apply ident_one; shelve].
      * eapply (jn_natural_outer _ "LEFT" _ _ _ _ _ []); [left; reflexivity|shelve|shelve|constructor|shelve].
      * shelve.
      * eapply (ta_name _ [_] _ [] _ _ []); [apply qn_one; shelve|shelve|constructor|constructor].
      * apply jn_join. shelve.
      * shelve.
      * eapply (ta_name _ [_] _ [] _ _ []); [apply qn_one; shelve|shelve|constructor|constructor].
      * apply on_using; [shelve|apply cm_more; [apply id_name; shelve|apply ident_one; shelve]].
    + eapply (lk_some _ _ _ [_] _ []); [shelve|apply sh_update; shelve|constructor|apply wt_skip; shelve].
  - by_tokens.
Unshelve. all: try leaf_goal. all: try (intros; reflexivity).
all: try (vm_compute; tauto).
2: { exists ["MINUTE_SECOND"]. split; [|now left]. instantiate (1 := "MinuteSecond"). vm_compute. tauto. }
Qed.
(** Arguments written [?] are numbered in the order they are written. *)
Example C46_arguments_apply : exists ts x,
  let o := mkOptions MariaDB ArgQuestionMark false false false in let src := txt "UPDATE t SET a = ?, b = 3 WHERE ?" in let r := mkReading o (place o 0 ts) in
  written r src ts /\ stmt_is r false false ts (SUpdate x) /\
  map snd (up_set x) = [EArg (mkArg 0 (17, 18)); EInteger (3%N, (24, 25))] /\ up_where x = Some (EArg (mkArg 1 (32, 33)), (26, 31)).
Proof.
  eexists [(TIdent (txt "UPDATE") (KW "UPDATE"), (0, 6)); (TIdent (txt "t") NOT_A_KEYWORD, (7, 8)); (TIdent (txt "SET") (KW "SET"), (9, 12));
    (TIdent (txt "a") NOT_A_KEYWORD, (13, 14)); (TEq, (15, 16)); (TQuestionMark, (17, 18)); (TComma, (18, 19)); 
    (TIdent (txt "b") NOT_A_KEYWORD, (20, 21)); (TEq, (22, 23)); (TInteger (txt "3"), (24, 25)); (TIdent (txt "WHERE") (KW "WHERE"), (26, 31)); (TQuestionMark, (32, 33))].
  set (l := [_; _; _; _; _; _; _; _; _; _; _; _]). eexists. cbn zeta.
  split; [apply written_exists; vm_compute; reflexivity|].
  set (o := mkReading _ _).
  assert (A0 : operand_is o [(TQuestionMark, (17, 18))] (EArg (mkArg 0 (17, 18)))) by (apply (od_placeholder o TQuestionMark (17, 18)); reflexivity).
  assert (A1 : operand_is o [(TQuestionMark, (32, 33))] (EArg (mkArg 1 (32, 33)))) by (apply (od_placeholder o TQuestionMark (32, 33)); reflexivity).
  split.
  - apply si_simple, sm_update. change l with ((TIdent (txt "UPDATE") (KW "UPDATE"), (0, 6)) :: [] ++ [(TIdent (txt "t") NOT_A_KEYWORD, (7, 8))] ++ (TIdent (txt "SET") (KW "SET"), (9, 12)) ::
      ([(TIdent (txt "a") NOT_A_KEYWORD, (13, 14)); (TEq, (15, 16)); (TQuestionMark, (17, 18))] ++ (TComma, (18, 19)) :: [(TIdent (txt "b") NOT_A_KEYWORD, (20, 21)); (TEq, (22, 23)); (TInteger (txt "3"), (24, 25))]) ++
      [(TIdent (txt "WHERE") (KW "WHERE"), (26, 31)); (TQuestionMark, (32, 33))] ++ []).
    eapply up_set'; [tok_kw|constructor|eapply table_leaf; [reflexivity|plain_name]|tok_kw| | | |now left].
    + apply cm_more; [|apply cm_one].
      * apply (cl_value _ [(TIdent (txt "a") NOT_A_KEYWORD, (13, 14))] [mkIdent (txt "a") (13, 14)] (15, 16)); [apply pt_one; plain_name|apply ex_leaf; exact A0].
      * apply (cl_value _ [(TIdent (txt "b") NOT_A_KEYWORD, (20, 21))] [mkIdent (txt "b") (20, 21)] (22, 23)); [apply pt_one; plain_name|apply (int_expr _ _ (txt "3")); vm_compute; discriminate].
    + eapply (cd_some o "WHERE"); [tok_kw|apply ex_leaf; exact A1].
    + constructor.
  - split; reflexivity.
Qed.
