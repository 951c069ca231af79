(** C47: definitions and ALTER TABLE are returned as they are written; C48: so are compound
    statements.  The grammar is in [DdlSpec.v] and [ScriptSpec.v]. *)
From Verif Require Export PropsStmt.
Local Open Scope string_scope.
Local Open Scope list_scope.

(** ** C47 *)
Theorem C47_definition : forall o src issues ts x,
  written o src ts -> define_is o ts x \/ create_table_is o ts x \/ alter_is o ts x ->
  parse_statement_api src issues o = Returns (Some x) issues.
Proof.
  intros o src issues ts x T [H|[H|H]]; eapply statement_source; try eassumption; [eapply si_define|eapply si_table|eapply si_alter]; exact H.
Qed.
(** One after the other, each followed by a semicolon. *)
Inductive definitions_script (o : reading) : tks -> list stmt -> Prop :=
| dd_nil : definitions_script o [] []
| dd_cons ts x s us l : define_is o ts x \/ create_table_is o ts x \/ alter_is o ts x -> definitions_script o us l -> definitions_script o (ts ++ (TSemiColon, s) :: us) (x :: l).
Theorem C47_script : forall o src issues ts l,
  written o src ts -> definitions_script o ts l ->
  parse_statements src issues o = Returns l issues.
Proof.
  intros o src issues ts l T H. eapply C31_correct_script; [exact T|]. clear T. induction H as [|ts x s us l H _ IH]; [apply sc_end|].
  destruct H as [H|[H|H]]; (eapply sc_stmt; [|exact IH]); [eapply si_define|eapply si_table|eapply si_alter]; exact H.
Qed.
(** A function: MariaDB takes a statement for its body, PostgreSQL passes over what is written
    between [$$] and [$$]. *)
Theorem C47_function : forall o src issues hs f cs l bs k x,
  written o src (hs ++ cs ++ bs) ->
  o_dialect o = MariaDB -> function_is o hs f -> many (characteristic_is o) cs l -> after_type (cs ++ bs) -> stmt_is o false k bs x ->
  parse_statement_api src issues o = Returns (Some (SCreateFunction (f l (Some x)))) issues.
Proof. intros. eapply statement_source; [eassumption|]. eapply si_function; eassumption. Qed.
Theorem C47_dollar_function : forall o src issues hs f ds cs l,
  written o src (hs ++ ds ++ cs) ->
  o_dialect o = PostgreSQL -> function_is o hs f -> dollar_body_is o ds -> many (characteristic_is o) cs l -> (ds = [] -> after_type cs) ->
  parse_statement_api src issues o = Returns (Some (SCreateFunction (f l None))) issues.
Proof. intros o src issues hs f ds cs l T D. intros. eapply statement_source; [eassumption|]. eapply si_dollar; try eassumption; [rewrite D; discriminate|now left]. Qed.

(** ** C48 *)
(** IF, CASE and DO. *)
Theorem C48_if : forall o src issues t s ts l e t1 s1 t2 s2,
  written o src ((t, s) :: ts ++ [(t1, s1); (t2, s2)]) ->
  kw_tok o "IF" t -> conditions_are o false None ts l e -> kw_tok o "END" t1 -> kw_tok o "IF" t2 ->
  parse_statement_api src issues o = Returns (Some (SIf (mkIf s l e (join s2 s1)))) issues.
Proof.
  intros o src issues t s ts l e t1 s1 t2 s2 T. intros. eapply statement_source; [|eapply (si_if o false t s ts l e t1 s1 t2 s2); eassumption]. exact T.
Qed.
Theorem C48_case : forall o src issues t s vs v ts l e t1 s1,
  written o src ((t, s) :: vs ++ ts ++ [(t1, s1)]) ->
  kw_tok o "CASE" t -> case_value_is o vs v -> cases_are o false ts l e -> kw_tok o "END" t1 ->
  parse_statement_api src issues o = Returns (Some (SCase (mkCaseStatement s v l e s1))) issues.
Proof.
  intros o src issues t s vs v ts l e t1 s1 T. intros. eapply statement_source; [|eapply (si_case o false t s vs v ts l e t1 s1); eassumption]. exact T.
Qed.
Theorem C48_do : forall o src issues t s s1 ts l s2,
  written o src ((t, s) :: (TDoubleDollar, s1) :: ts ++ [(TDoubleDollar, s2)]) ->
  kw_tok o "DO" t -> body_is o false ts l ->
  parse_statement_api src issues o = Returns (Some (SDo (mkBlock l))) issues.
Proof.
  intros o src issues t s s1 ts l s2 T. intros. eapply statement_source; [|eapply si_do; eassumption]. exact T.
Qed.
(** The usual way of writing a trigger: the semicolons inside of its body do not end it while
    another delimiter is set, and every statement of the body is kept. *)
Theorem C48_trigger_script : forall o src issues t s s1 hs f bs l s2 t' s3 s4,
  written o src ((t, s) :: (TDoubleDollar, s1) :: hs ++ bs ++ [(TDoubleDollar, s2); (t', s3); (TSemiColon, s4)]) ->
  kw_tok o "DELIMITER" t -> kw_tok o "DELIMITER" t' -> trigger_is o hs f -> body_is o true bs l ->
  parse_statements src issues o = Returns [SCreateTrigger (f (SBlock (mkBlock l)))] issues.
Proof.
  intros o src issues t s s1 hs f bs l s2 t' s3 s4 T K K' H B.
  eapply (C31_correct_script o src issues ((t, s) :: (TDoubleDollar, s1) :: (hs ++ bs) ++ [(TDoubleDollar, s2); (t', s3); (TSemiColon, s4)])).
  - rewrite <- app_assoc. exact T.
  - apply sc_set; [exact K|now right|]. eapply sc_stmt; [eapply si_trigger; [exact H|apply si_block; exact B]|].
    apply sc_set; [exact K'|now left|apply sc_end].
Qed.
(** In one statement, without a delimiter. *)
Theorem C48_trigger : forall o src issues hs f bs k x,
  written o src (hs ++ bs) -> trigger_is o hs f -> stmt_is o true k bs x ->
  parse_statement_api src issues o = Returns (Some (SCreateTrigger (f x))) issues.
Proof. intros. eapply statement_source; [eassumption|]. eapply si_trigger; eassumption. Qed.

(** *** Examples *)
Ltac find_in := first [left; reflexivity | right; find_in].
Ltac leaf := first [leaf_goal | (split; [leaf_goal|eexists; reflexivity]) | (match goal with |- In _ _ => find_in end)].
Lemma type_only o no_as ts s ty : basic_is o ts s ty -> dtype_is o no_as false ts (mkDataType s ty []).
Proof. intros H. rewrite <- (app_nil_r ts). eapply dy_is; [exact H|constructor]. Qed.
Lemma int_type o t s : kw_tok o "INT" t -> basic_is o [(t, s)] s (TyWidth "Int" None).
Proof. intros H. eapply (ba_sized _ "INT" "Int" _ _ []); [find_in|exact H|constructor]. Qed.
Lemma quoted_one w s : string_is [(TSingleQuotedString w, s)] (mkSString (decode_single_quoted_string w) s).
Proof. eapply sg_string; [apply lt_single|constructor]. Qed.
Lemma many_one {A} (P : tks -> A -> Prop) ts a : P ts a -> many P ts [a].
Proof. intros H. rewrite <- (app_nil_r ts). eapply mn_cons; [exact H|constructor]. Qed.
Lemma no_options o t s : kw_tok o "CREATE" t -> create_is o [(t, s)] s [].
Proof. intros H. apply (cr_is _ _ _ [] []); [exact H|constructor]. Qed.
Lemma index_col_one o t v s s1 s2 : name_tok o t v -> index_cols_are o [(TLParen, s1); (t, s); (TRParen, s2)] [mkIndexCol (mkIdent v s) None].
Proof. intros H. apply (xs_are _ s1 [(t, s)]). now apply cm_one, il_name. Qed.
Lemma names_one o t v s s1 s2 : name_tok o t v -> names_are o [(TLParen, s1); (t, s); (TRParen, s2)] [mkIdent v s].
Proof. intros H. apply (nm_are _ s1 [(t, s)]). now apply ident_one. Qed.
Ltac select_one := eapply qu_one, bt_select, (sl_no_from _ _ _ [] []); [shelve|constructor|apply sn_one, se_plain, int_expr; shelve].

Example C47_table_applies : exists ts x,
  let o := unnumbered default_options in
  let src := txt "CREATE OR REPLACE TABLE IF NOT EXISTS db.t (id INT(11) NOT NULL PRIMARY KEY, n VARCHAR(20) DEFAULT 'x' COMMENT 'c', CONSTRAINT fk FOREIGN KEY (a, b) REFERENCES u (c) ON DELETE SET NULL) ENGINE = InnoDB DEFAULT CHARSET utf8" in
  written o src ts /\ create_table_is o ts (SCreateTable x).
Proof.
  eexists _, _. cbn zeta. apply and_comm. split.
  - eapply tb_is.
    + eapply cr_is; [shelve|]. apply many_one. apply cp_replace; shelve.
    + shelve.
    + apply tn_some; shelve.
    + apply qn_more; [shelve|apply qn_one; shelve].
    + apply ds_some. apply cm_more; [|apply cm_more; [|apply cm_one]].
      * eapply df_column; [shelve|]. eapply dy_is; [eapply (ba_sized _ "INT" "Int"); [shelve|shelve|apply owi_some, wi_is; shelve]|].
        eapply pp_more; [apply pr_not_null; shelve|eapply pp_last; apply pr_primary; shelve|discriminate|discriminate].
      * eapply df_column; [shelve|]. eapply dy_is; [eapply (ba_sized _ "VARCHAR" "VarChar"); [shelve|shelve|apply owi_some, wi_is; shelve]|].
        eapply pp_more; [apply pr_default; [shelve|apply ex_leaf, od_string, quoted_one with (w := txt "x")]|eapply pp_last; apply pr_comment; [shelve|apply quoted_one with (w := txt "c")]|discriminate|intros _; shelve].
      * eapply df_foreign; [shelve|shelve|shelve|shelve| |shelve|shelve|apply names_one; shelve|eapply dl_null; shelve].
        apply nm_are. apply cm_more; [apply id_name; shelve|apply ident_one; shelve].
    + eapply mn_cons; [eapply (to_word _ "ENGINE" "Engine" _ _ [_]); [shelve|shelve|apply oe_some|shelve]|].
      apply many_one. eapply (to_default _ "CHARSET" "DefaultCharSet" _ _ _ _ []); [shelve|shelve|shelve|apply oe_none|shelve].
  - by_tokens.
Unshelve. all: try leaf.
Qed.
Example C47_script_applies : exists ts l,
  let o := unnumbered default_options in
  let src := txt "ALTER TABLE t ADD COLUMN c INT, ADD PRIMARY KEY (a), ADD CONSTRAINT k FOREIGN KEY (a) REFERENCES u (b) ON DELETE CASCADE, MODIFY c DATE; CREATE VIEW v AS SELECT 1; CREATE UNIQUE INDEX i ON t (a, b);" in
  written o src ts /\ definitions_script o ts l /\ length l = 3.
Proof.
  eexists _, [_; _; _]. cbn zeta. assert (R : forall A B C : Prop, C -> B -> A -> A /\ B /\ C) by auto. apply R; clear R; [reflexivity| |].
  - eapply dd_cons; [right; right|eapply dd_cons; [left; apply de_view|eapply dd_cons; [left; apply de_index|apply dd_nil]]].
    + eapply (at_is _ _ _ [] None [] None _ _ [] None); [shelve|constructor|constructor|shelve|constructor|apply qn_one; shelve|].
      apply cm_more; [|apply cm_more; [|apply cm_more; [|apply cm_one]]].
      * eapply (sp_column _ _ _ _ _ _ [] None); [shelve|shelve|constructor|shelve|apply type_only, int_type; shelve].
      * eapply (sp_index _ _ _ [] None _ _ [] None [] None [] [] _ _ [] []); [shelve|constructor|apply kd_primary; shelve|constructor|constructor|constructor|apply index_col_one; shelve|constructor].
      * eapply (sp_foreign _ _ _ _ _ _ _ _ _ [] None [] None); [shelve|apply ct_some; [shelve|apply on_name; shelve]|shelve|shelve|constructor|constructor|apply index_col_one; shelve|shelve|shelve|apply names_one; shelve|].
        apply many_one. eapply (fo_is _ "DELETE" _); [shelve|shelve|shelve|eapply (fa_word _ "CASCADE"); shelve].
      * eapply (sp_modify _ _ _ _ [] None [] None); [shelve|constructor|constructor|shelve|apply type_only; eapply (ba_simple _ "DATE"); shelve].
    + eapply (vw_is _ _ _ _ _ _ [] None); [apply no_options; shelve|shelve|constructor|apply qn_one; shelve|shelve|select_one].
    + eapply (xi_is _ _ _ _ _ _ [] None _ _ _ _ _ _ _ [] [] _ _ _ _ []); [eapply cr_is; [shelve|apply many_one, cp_unique; shelve]|shelve|constructor|shelve|shelve|apply qn_one; shelve|constructor| |constructor].
      apply cm_more; [apply xc_name; shelve|apply cm_one, xc_name; shelve].
  - by_tokens.
Unshelve. all: try leaf.
Qed.
Example C47_function_applies : exists hs f cs l bs k x,
  let o := unnumbered default_options in let src := txt "CREATE FUNCTION f (a INT, OUT b DATE) RETURNS INT DETERMINISTIC NO SQL SELECT 1" in
  written o src (hs ++ cs ++ bs) /\
  (o_dialect o = MariaDB /\ function_is o hs f /\ many (characteristic_is o) cs l /\ after_type (cs ++ bs) /\ stmt_is o false k bs x).
Proof.
  eexists _, _, _, _, _, _, _. cbn zeta. apply and_comm. split; [split; [reflexivity|split; [|split; [|apply and_comm; split]]]|].
  - eapply (fn_is _ _ _ _ _ _ [] None); [apply no_options; shelve|shelve|constructor|shelve| |shelve|apply type_only, int_type; shelve].
    apply cm_more; [eapply (pm_is _ _ [] None)|apply cm_one; eapply pm_is]; [constructor|shelve|apply type_only, int_type; shelve|apply dr_out; shelve|shelve|apply type_only; eapply (ba_simple _ "DATE"); shelve].
  - eapply mn_cons; [apply ch_deterministic; shelve|]. apply many_one, ch_no; shelve.
  - apply si_query. select_one.
  - repeat split; shelve.
  - by_tokens.
Unshelve. all: try leaf.
Qed.
Example C47_dollar_function_applies : exists hs f ds cs l,
  let o := unnumbered (mkOptions PostgreSQL ArgNone false false false) in let src := txt "CREATE FUNCTION f (a INT) RETURNS INT AS $$ x + ; y $$ LANGUAGE sql" in
  written o src (hs ++ ds ++ cs) /\
  (o_dialect o = PostgreSQL /\ function_is o hs f /\ dollar_body_is o ds /\ many (characteristic_is o) cs l /\ (ds = [] -> after_type cs)).
Proof.
  eexists _, _, ((_, _) :: (_, _) :: [_; _; _; _] ++ [(_, _)]), _, _. cbn zeta. apply and_comm. split; [split; [reflexivity|split; [|split; [|split]]]|].
  - eapply (fn_is _ _ _ _ _ _ [] None); [apply no_options; shelve|shelve|constructor|shelve| |shelve|apply type_only, int_type; shelve].
    apply cm_one; eapply (pm_is _ _ [] None); [constructor|shelve|apply type_only, int_type; shelve].
  - apply db_some; [shelve|]. repeat (constructor; [shelve|]); constructor.
  - apply many_one. eapply (ch_language _ "SQL"); shelve.
  - discriminate.
  - by_tokens.
Unshelve. all: try leaf. all: try (split; [discriminate|split; [discriminate|reflexivity]]).
Qed.
(** A trigger with nested statements. *)
Example C48_trigger_script_applies : exists t s s1 hs f bs l s2 t' s3 s4,
  let o := unnumbered default_options in
  let src := txt "DELIMITER $$ CREATE TRIGGER tr BEFORE INSERT ON t FOR EACH ROW BEGIN IF a THEN TRUNCATE u; ELSEIF b THEN BEGIN COMMIT; END; ELSE SELECT 1; SELECT 2; END IF; CASE a WHEN 1 THEN COMMIT; END; END $$ DELIMITER ;" in
  written o src ((t, s) :: (TDoubleDollar, s1) :: hs ++ bs ++ [(TDoubleDollar, s2); (t', s3); (TSemiColon, s4)]) /\
  (kw_tok o "DELIMITER" t /\ kw_tok o "DELIMITER" t' /\ trigger_is o hs f /\ body_is o true bs l).
Proof.
  eexists _, _, _, _, _, _, _, _, _, _, _. cbn zeta. apply and_comm. split; [split; [shelve|split; [shelve|split]]|].
  - eapply (tg_is _ _ _ _ _ _ [] None _ _ _ "BEFORE" _ _ _ "INSERT"); [apply no_options; shelve|shelve|constructor|shelve|shelve..].
  - eapply bd_plain; [shelve| |now left|shelve].
    eapply (li_stmt _ _ _ _ []); [constructor| |eapply (li_stmt _ _ _ _ []); [constructor| |apply (li_end _ _ [])]; [|constructor]].
    + eapply si_if; [shelve| |shelve|shelve].
      eapply co_more; [apply name_expr; shelve|shelve| |shelve|eapply co_else; [apply name_expr; shelve|shelve| |shelve| |now left]].
      * eapply (li_stmt _ _ _ _ []); [constructor| |apply (li_end _ _ []); constructor]. apply si_simple, sm_truncate; eapply (tr_is _ _ _ []); [shelve|constructor|apply qn_one; shelve].
      * eapply (li_stmt _ _ _ _ []); [constructor| |apply (li_end _ _ []); constructor]. apply si_block. eapply bd_plain; [shelve| |now left|shelve].
        eapply (li_stmt _ _ _ _ []); [constructor| |apply (li_end _ _ []); constructor]. apply si_commit; shelve.
      * eapply (li_stmt _ _ _ _ []); [constructor|apply si_query; select_one|]. eapply (li_stmt _ _ _ _ []); [constructor|apply si_query; select_one|apply (li_end _ _ []); constructor].
    + eapply si_case; [shelve|apply cv_some, name_expr; shelve| |shelve]. eapply cw_last; [shelve|apply int_expr; shelve|shelve| |now left].
      eapply (li_stmt _ _ _ _ []); [constructor| |apply (li_end _ _ []); constructor]. apply si_commit; shelve.
  - by_tokens.
Unshelve. all: try leaf.
Qed.
Example C48_if_applies : exists t s ts l e t1 s1 t2 s2,
  let o := unnumbered default_options in let src := txt "IF a THEN SELECT 1; SELECT 2 ELSEIF b THEN COMMIT; ELSE COMMIT END IF" in
  written o src ((t, s) :: ts ++ [(t1, s1); (t2, s2)]) /\
  (kw_tok o "IF" t /\ conditions_are o false None ts l e /\ kw_tok o "END" t1 /\ kw_tok o "IF" t2).
Proof.
  eexists _, _, _, _, _, _, _, _, _. cbn zeta. apply and_comm. split; [split; [shelve|split; [|split; [shelve|shelve]]]|].
  - eapply co_more; [apply name_expr; shelve|shelve| |shelve|eapply co_else; [apply name_expr; shelve|shelve| |shelve| |now right]].
    + eapply (li_stmt _ _ _ _ []); [constructor|apply si_query; select_one|]. apply (li_last _ _ []); [constructor|apply si_query; select_one].
    + eapply (li_stmt _ _ _ _ []); [constructor| |apply (li_end _ _ []); constructor]. apply si_commit; shelve.
    + apply (li_last _ _ []); [constructor|apply si_commit; shelve].
  - by_tokens.
Unshelve. all: try leaf.
Qed.
Example C48_case_applies : exists t s vs v ts l e t1 s1,
  let o := unnumbered default_options in let src := txt "CASE WHEN a THEN COMMIT; WHEN b THEN COMMIT; SELECT 1 ELSE START TRANSACTION END" in
  written o src ((t, s) :: vs ++ ts ++ [(t1, s1)]) /\
  (kw_tok o "CASE" t /\ case_value_is o vs v /\ cases_are o false ts l e /\ kw_tok o "END" t1).
Proof.
  eexists _, _, _, _, _, _, _, _, _. cbn zeta. apply and_comm. split; [split; [shelve|split; [apply cv_none|split; [|shelve]]]|].
  - eapply cw_more; [shelve|apply name_expr; shelve|shelve| |eapply cw_else; [shelve|apply name_expr; shelve|shelve| |shelve| |now right]].
    + eapply (li_stmt _ _ _ _ []); [constructor| |apply (li_end _ _ []); constructor]. apply si_commit; shelve.
    + eapply (li_stmt _ _ _ _ []); [constructor|apply si_commit; shelve|]. apply (li_last _ _ []); [constructor|apply si_query; select_one].
    + apply (li_last _ _ []); [constructor|eapply si_start; shelve].
  - by_tokens.
Unshelve. all: try leaf.
Qed.
Example C48_do_applies : exists t s s1 ts l s2,
  let o := unnumbered (mkOptions PostgreSQL ArgNone false false false) in let src := txt "DO $$ BEGIN COMMIT; ; SELECT 1; EXCEPTION WHEN e THEN 1; END $$" in
  written o src ((t, s) :: (TDoubleDollar, s1) :: ts ++ [(TDoubleDollar, s2)]) /\
  (kw_tok o "DO" t /\ body_is o false ts l).
Proof.
  eexists _, _, _, _, _, _. cbn zeta. apply and_comm. split; [split; [shelve|]|].
  - eapply bd_exception; [shelve| |shelve|apply many_one; eapply hn_is; [shelve|shelve|shelve|apply int_expr; shelve]|shelve].
    eapply (li_stmt _ _ _ _ []); [constructor|apply si_commit; shelve|]. eapply (li_stmt _ _ _ _ [_]); [constructor; [shelve|constructor]|apply si_query; select_one|apply (li_end _ _ []); constructor].
  - by_tokens.
Unshelve. all: try leaf.
Qed.
Example C48_trigger_applies : exists hs f bs k x,
  let o := unnumbered default_options in let src := txt "CREATE TRIGGER tr AFTER DELETE ON t FOR EACH ROW BEGIN COMMIT END" in
  written o src (hs ++ bs) /\ (trigger_is o hs f /\ stmt_is o true k bs x).
Proof.
  eexists _, _, _, _, _. cbn zeta. apply and_comm. split; [split|].
  - eapply (tg_is _ _ _ _ _ _ [] None _ _ _ "AFTER" _ _ _ "DELETE"); [apply no_options; shelve|shelve|constructor|shelve|shelve..].
  - apply si_block. eapply bd_plain; [shelve|apply (li_last _ _ []); [constructor|apply si_commit; shelve]|now right|shelve].
  - by_tokens.
Unshelve. all: try leaf.
Qed.
(** Outside of a trigger, a semicolon in front of the END of an IF is not accepted: END is taken
    for a statement of its own. *)
Example C48_semicolon_refuted :
  match parse_statement_api (txt "IF a THEN SELECT 1; END IF") [] default_options with Returns _ (_ :: _) => True | _ => False end.
Proof. vm_compute. exact I. Qed.
