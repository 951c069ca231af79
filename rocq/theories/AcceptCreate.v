(** C51: CREATE and ALTER follow the grammar. *)
From Verif Require Export AcceptData.
Local Open Scope string_scope.
Local Open Scope list_scope.

(** What a statement is called in the grammar: the statements allowed in WITH have names of their own. *)
Definition kind (s : stmt) : nt :=
  match s with
  | SCreateIndex _ | SCreateTable _ | SCreateView _ | SCreateTrigger _ | SCreateFunction _ | SCreateTypeEnum _ => NCreate
  | SSelect _ => NSingle | SUnion _ => NQuery | SInsertReplace _ => NInsert | SUpdate _ => NUpdate | SDelete _ => NDelete
  | SDropIndex _ | SDropTable _ | SDropFunction _ | SDropProcedure _ | SDropEvent _ | SDropDatabase _ | SDropServer _ | SDropTrigger _ | SDropView _ => NDrop
  | SAlterTable _ => NAlter | SSet _ => NSet | SSignal _ => NSignal | SBlock _ => NBlock | SIf _ => NIf | SCase _ => NCase | SDo _ => NDo
  | STruncateTable _ => NTruncate | SRenameTable _ => NRename | SWithQuery _ => NWith | SReturn _ => NReturn
  | SBegin _ | SEnd _ | SCommit _ | SStartTransaction _ | SInvalid _ | SCopy _ | SStdin _ => NStmt
  end.
Section Grammar.
Variable o : options.
Notation reads_at := (reads_at o). Notation reads := (reads o). Notation follow := (follow o). Notation calls := (calls o).
Lemma c_if_not_exists : calls parse_if_not_exists if_not_exists.
Proof. unfold if_not_exists, words. cbn [map]. rule_of. unfold parse_if_not_exists. walk. Qed.
Hint Resolve c_if_not_exists : reads.
Lemma c_skip_identifiers n : calls (skip_identifiers n) names.
Proof. unfold skip_identifiers. apply c_map, c_sep_list, c_name. Qed.
Hint Resolve c_skip_identifiers : reads.
Definition constraint_def := Seq [W "CONSTRAINT"; name; W "FOREIGN"; W "KEY"; paren [names]; W "REFERENCES"; name; paren [names];
           Opt (Seq [W "ON"; W "DELETE"; Alt [W "CASCADE"; W "DELETE"; W "RESTRICT"; words ["SET"; "NULL"]]])].
Lemma c_constraint_def n : calls (parse_create_constraint_definition n) constraint_def.
Proof. unfold constraint_def. rule_of. unfold parse_create_constraint_definition. walk. Qed.
Hint Resolve c_constraint_def : reads.
Lemma c_param_direction : calls parse_param_direction (Opt (Alt [Seq [W "IN"; Opt (W "OUT")]; W "OUT"; W "INOUT"])).
Proof. rule_of. unfold parse_param_direction. walk. Qed.
Hint Resolve c_param_direction : reads.
Lemma c_dollar_body n : calls (skip_dollar_body n) (N_ NDollarBody).
Proof.
  rule_of. unfold skip_dollar_body. apply f_seq. cbn [app]. walk1. intro t1.
  apply (ra_conseq o _ _ _ (fun _ ts => derives o (Seq [Star (C CAny); T TDoubleDollar]) ts)).
  2: { intros a ts H. exists ts, []. rewrite app_nil_r. now repeat split. }
  apply (ra_loop o _ _ _ (fun _ ts => derives o (Star (C CAny)) ts)); [constructor|]. intros u ts1 D t2. apply ra_token.
  destruct (tok_eqb t2 TEof || tok_eqb t2 TDoubleDollar) eqn:E.
  - eapply ra_bind; [apply ra_token'|]. intros a ts [-> ->] t3. apply ra_ret. rewrite app_nil_r. constructor; [exact D|]. apply (proj1 (d_one _ _ _)). constructor.
  - apply ra_consume. intros s t3. apply ra_ret. apply d_snoc; [exact D|]. constructor. apply orb_false_iff in E as [E1 E2]. cbn. now rewrite E1, E2.
Qed.
Hint Resolve c_dollar_body : reads.
Lemma c_characteristic n : reads (parse_characteristic n) (maybe o (N_ NCharacteristic)).
Proof. intros t. unfold parse_characteristic. walk. Qed.
Hint Resolve c_characteristic : reads.
Definition opclass := Opt (one_of ["TEXT_PATTERN_OPS"; "VARCHAR_PATTERN_OPS"; "BPCHAR_PATTERN_OPS"; "INT8_OPS"; "INT4_OPS"; "INT2_OPS"]).
Lemma c_index_column : calls parse_index_column (Seq [name; pg o opclass (Seq [])]).
Proof. rule_of. unfold parse_index_column, pg, opclass. destruct (is_postgresql (o_dialect o)) eqn:D; apply f_seq; cbn [app]; walk1; apply ra_token; destruct (kw_assoc opclasses t0) as [[k c]|] eqn:E; walk. all: doom. Qed.
Hint Resolve c_index_column : reads.
Lemma c_create_option : reads parse_create_option (maybe o (N_ NCreateOption)).
Proof. intros t. unfold parse_create_option. walk. Qed.
Hint Resolve c_create_option : reads.
Lemma c_table_option n l : reads (parse_table_option n l) (turn_acc o (N_ NTableOption)).
Proof. intros t. unfold parse_table_option. walk. Qed.
Lemma c_table_options x e n m l : calls (recovered_acc x e (loop_acc n (parse_table_option m) l)) (Star (N_ NTableOption)).
Proof. apply c_loop_acc. intros s. apply c_table_option. Qed.
Hint Resolve c_table_options : reads.
Lemma c_create_options x e n (l : list create_option) : calls (recovered_acc x e (loop_acc n (fun l : list create_option =>
               o <- parse_create_option ;;
               match o with
               | Some o => Ret (l ++ [o], Continue)
               | None => Ret (l, Break)
               end) l)) (Star (N_ NCreateOption)).
Proof.
  apply c_loop_acc. intros s t. eapply ra_bind; [apply c_create_option|]. intros [y|] ts H t1; cbn [maybe] in H; apply ra_ret; unfold turn_acc; cbn [snd]; rewrite app_nil_r; exact H.
Qed.
Hint Resolve c_create_options : reads.

Section Rec.
Variable r : recs.
Hypothesis HE : forall b, calls (r_expr r b) (N_ (NExpr b)).
Hypothesis HC : reads (r_compound r) (fun s ts => derives o (N_ (match s with SSelect _ => NSingle | _ => NQuery end)) ts).
Definition stmt_post (x : option stmt) (ts : list tok) : Prop :=
  match x with None => ts = [] | Some s => reads_from_stdin s = false /\ derives o (N_ (kind s)) ts end.
Hypothesis HS : reads (r_stmt r) stmt_post.
Hint Resolve HE HC : reads.
Lemma in_stmt n ts : In (N_ n) (match rule o NStmt with Alt l => l | _ => [] end) -> derives o (N_ n) ts -> derives o (N_ NStmt) ts.
Proof. intros I D. apply d_rule. cbn [rule] in *. eapply d_alt; [exact I|exact D]. Qed.
Lemma kind_stmt s ts : derives o (N_ (kind s)) ts -> derives o (N_ NStmt) ts.
Proof. destruct s; cbn [kind]; auto; lazymatch goal with |- derives _ (N_ NSingle) _ -> _ => idtac | _ => apply in_stmt; cbn; tauto end. intros H. apply (in_stmt NQuery); [cbn; tauto|]. now apply single_query. Qed.
Lemma c_definition : calls (parse_create_definition r) (N_ NDefinition).
Proof. rule_of. unfold parse_create_definition. walk. Qed.
Hint Resolve c_definition : reads.
Lemma c_compound_q : calls (parse_compound_query r) (N_ NQuery).
Proof. intros t. eapply ra_conseq; [apply c_compound_query; assumption|]. intros s ts. destruct s; cbn [query_kind]; auto using single_query. Qed.
Hint Resolve c_compound_q : reads.
Lemma c_create_view s l : calls (parse_create_view r s l) (N_ NCreateView).
Proof. rule_of. unfold parse_create_view. walk. Qed.
Lemma c_function_param : calls (parse_function_param r) (N_ NParam).
Proof. rule_of. unfold parse_function_param. walk. Qed.
Hint Resolve c_function_param : reads.
Lemma f_stmt A (k : option stmt -> prog A) l R t : (forall s, reads (k (Some s)) (follow l R)) -> reads (k None) (fun _ _ => False) ->
  reads_at t (bind (r_stmt r) k) (follow (N_ NStmt :: l) R).
Proof.
  intros K K0. eapply ra_bind; [apply HS|]. intros [s|] ts1 H t1; cbn [stmt_post] in H; [|apply ra_doomed, K0].
  destruct H as [_ H]. apply kind_stmt in H. eapply ra_conseq; [apply K|].
  intros b ts (a1 & a2 & -> & X & Y). exists (ts1 ++ a1), a2. rewrite app_assoc. repeat split; [|exact Y]. now constructor.
Qed.
Lemma c_create_function s l : calls (parse_create_function r s l) (N_ NCreateFunction).
Proof.
  rule_of. unfold parse_create_function. unfold pg, maria. 
  assert (D : (is_maria (o_dialect o) = true /\ is_postgresql (o_dialect o) = false) \/ (is_maria (o_dialect o) = false /\ is_postgresql (o_dialect o) = true)
    \/ (is_maria (o_dialect o) = false /\ is_postgresql (o_dialect o) = false)) by (destruct (o_dialect o); auto).
  destruct D as [[D1 D2]|[[D1 D2]|[D1 D2]]]; rewrite D1, ?D2; walk.
  apply f_stmt; [intros st t9; walk|intros t9; walk].
Qed.
Lemma c_create_trigger s l : calls (parse_create_trigger r s l) (N_ NCreateTrigger).
Proof. rule_of. unfold parse_create_trigger. walk. all: apply f_stmt; [intros st t9; walk|intros t9; walk]. Qed.
Lemma c_create_type s l : calls (parse_create_type r s l) (N_ NCreateType).
Proof. rule_of. unfold parse_create_type, pg. destruct (is_postgresql (o_dialect o)) eqn:D; walk. all: doom. Qed.
Lemma c_create_index s l : calls (parse_create_index r s l) (N_ NCreateIndex).
Proof. rule_of. unfold parse_create_index. fold opclass. unfold maria. destruct (is_maria (o_dialect o)) eqn:D; walk. all: apply ra_skip_kw; [intros ? ? ?; doom|intros E; walk]. Qed.
Lemma c_table_head n : calls (recovered_acc "'('" (fun t => tok_eqb t TLParen) (create_table_head n)) (Seq [if_not_exists; qualified]).
Proof.
  intros t. apply ra_recovered_acc. unfold create_table_head. cbv zeta.
  assert (K : forall (i : option span) t1, reads_at t1 (Try (parse_qualified_name n) (fun q => match q with Some q => Ret (q, i, true) | None => Ret (default_qname, i, false) end))
    (fine (fun _ => derives o qualified))).
  { intros i t1. eapply ra_try'; [apply c_qualified|]. intros q ts H t2. apply ra_ret. split; [reflexivity|]. cbn [fst]. now rewrite app_nil_r. }
  apply ra_skip_kw.
  - intros E s t1. eapply ra_try'; [apply c_keywords|]. intros x ts1 H1 t2. cbv iota. eapply ra_conseq; [apply K|]. intros y ts2 [H2 H3]. split; [exact H2|].
    change (t :: ts1 ++ ts2) with ((t :: ts1) ++ ts2). constructor; [|now apply (proj1 (d_one _ _ _))]. constructor. change (t :: ts1) with ([t] ++ ts1). unfold words. cbn [map]. constructor; [now constructor|exact H1].
  - intros E. eapply ra_conseq; [apply K|]. intros y ts2 [H2 H3]. split; [exact H2|]. change ts2 with ([] ++ ts2). constructor; [constructor|now apply (proj1 (d_one _ _ _))].
Qed.
Lemma f_pair A B t (p : prog A) (k : A -> prog B) a b l (R : B -> list tok -> Prop) : calls p (Seq [a; b]) -> (forall x, reads (k x) (follow l R)) -> reads_at t (bind p k) (follow (a :: b :: l) R).
Proof.
  intros H1 H2. eapply ra_bind; [apply H1|]. intros x ts1 H t1. eapply ra_conseq; [apply H2|]. intros y ts (b1 & b2 & -> & X & Y).
  exists (ts1 ++ b1), b2. rewrite app_assoc. repeat split; [|exact Y]. now apply (d_app' o [a; b] l).
Qed.
Lemma c_create_table s l : calls (parse_create_table r s l) (N_ NCreateTable).
Proof. rule_of. unfold parse_create_table. apply f_seq. cbn [app]. walk1. walk1. apply f_pair; [apply c_table_head|]. intros [q i] t2. walk. Qed.
Hint Resolve c_create_view c_create_function c_create_trigger c_create_type c_create_index c_create_table : reads.
Lemma c_create : calls (parse_create r) (N_ NCreate).
Proof. rule_of. unfold parse_create. walk. Qed.

(** ALTER *)
Lemma c_index_type : calls parse_index_type (Seq [W "USING"; one_of ["BTREE"; "HASH"; "RTREE"]]).
Proof. rule_of. unfold parse_index_type. walk. Qed.
Hint Resolve c_index_type : reads.
Lemma c_index_options n l : calls (parse_index_options n l) (Star (N_ NIndexOption)).
Proof. apply f_calls. intros t. unfold parse_index_options. walk. Qed.
Hint Resolve c_index_options : reads.
Lemma c_index_col : calls parse_index_col (Seq [name; Opt (paren [C (CInt u32_max)])]).
Proof. rule_of. unfold parse_index_col. walk. Qed.
Hint Resolve c_index_col : reads.
Lemma c_index_cols n : calls (parse_index_cols n) (N_ NIndexCols).
Proof. rule_of. unfold parse_index_cols. walk. Qed.
Lemma c_cols n : calls (parse_cols n) (paren [names]).
Proof. rule_of. unfold parse_cols. walk. Qed.
Lemma c_opt_name : calls opt_name (Opt name).
Proof. rule_of. unfold opt_name. walk. Qed.
Hint Resolve c_index_cols c_cols c_opt_name : reads.
Lemma c_constraint : calls parse_constraint (Opt (Seq [W "CONSTRAINT"; Opt name])).
Proof. rule_of. unfold parse_constraint. walk. Qed.
Hint Resolve c_constraint : reads.
Lemma one_word t a b : is_kw t a = true -> is_kw t b = true -> a = b.
Proof. destruct t; cbn; try discriminate. intros H1 H2. apply kw_eqb_eq in H1, H2. congruence. Qed.
Lemma ra_wrong_word B t k w (f : span -> prog B) R : is_kw t k = true -> k <> w -> reads_at t (bind (consume_keyword w) f) R.
Proof. intros H N. eapply ra_bind; [apply ra_keyword'|]. intros a ts [_ H2]. exfalso. apply N. eapply one_word; eauto. Qed.
Lemma c_fk_on s : calls (parse_fk_on s) (Seq [one_of ["UPDATE"; "DELETE"]; Alt [W "RESTRICT"; W "CASCADE"; words ["SET"; "NULL"]; words ["NO"; "ACTION"]]]).
Proof. rule_of. unfold parse_fk_on. walk. all: eapply ra_wrong_word; [eassumption|discriminate]. Qed.
Hint Resolve c_fk_on : reads.
Lemma c_fk_ons n l : calls (loop n (fun l : list foreign_key_on =>
           o <- skip_keyword "ON" ;;
           match o with
           | Some on => f <- parse_fk_on on ;; Ret (inl (l ++ [f]))
           | None => Ret (inr l)
           end) l) (Star (N_ NForeignOn)).
Proof.
  apply c_loop. intros s t. apply ra_skip_kw; [|intros _; apply t_end]. intros E on t1. eapply ra_bind; [apply c_fk_on|]. intros f ts H t2. apply ra_ret. cbn [turn]. rewrite app_nil_r.
  apply d_rule. cbn [rule]. change (t :: ts) with ([t] ++ ts). constructor; [now constructor|exact H].
Qed.
Hint Resolve c_fk_ons : reads.
Lemma c_add_foreign_key n a c : calls (parse_add_foreign_key n a c)
  (Seq [W "FOREIGN"; W "KEY"; if_not_exists; Opt name; N_ NIndexCols; W "REFERENCES"; name; paren [names]; Star (N_ NForeignOn)]).
Proof. rule_of. unfold parse_add_foreign_key. walk. Qed.
Lemma c_index_kind k : calls (parse_index_kind k) (Seq [W k; one_of ["INDEX"; "KEY"]]).
Proof. rule_of. unfold parse_index_kind. walk. Qed.
Hint Resolve c_index_kind : reads.
Lemma c_add_index n a c : calls (parse_add_index n a c)
      (Seq [Alt [words ["PRIMARY"; "KEY"]; one_of ["INDEX"; "KEY"]; Seq [one_of ["FULLTEXT"; "SPATIAL"; "UNIQUE"]; one_of ["INDEX"; "KEY"]]];
           if_not_exists; Opt name; Opt (Seq [W "USING"; one_of ["BTREE"; "HASH"; "RTREE"]]); N_ NIndexCols; Star (N_ NIndexOption)]).
Proof. rule_of. unfold parse_add_index. walk. all: apply f_pair; [apply c_index_kind|]; intros ? ?; walk. Qed.
Lemma c_add_column a : calls (parse_add_column r a) (Seq [W "COLUMN"; maria o (Seq []) if_not_exists; name; N_ (NDataType false)]).
Proof. rule_of. unfold parse_add_column, maria. destruct (is_maria (o_dialect o)) eqn:D; walk. doom. Qed.
Hint Resolve c_add_foreign_key c_add_index c_add_column : reads.
Lemma c_add : calls (parse_add_alter_specification r) (N_ NAdd).
Proof. rule_of. unfold parse_add_alter_specification. walk. Qed.
Hint Resolve c_add : reads.
Lemma c_alter_column : calls (parse_alter_column_action r) (N_ NAlterColumn).
Proof. rule_of. unfold parse_alter_column_action. walk. Qed.
Hint Resolve c_alter_column : reads.
Lemma c_alteration : calls (parse_alter_specification r) (N_ NAlteration).
Proof. rule_of. unfold parse_alter_specification. walk. Qed.
Hint Resolve c_alteration : reads.
Lemma c_alter : calls (parse_alter r) (N_ NAlter).
Proof. rule_of. unfold parse_alter, parse_alter_table. walk. Qed.
End Rec.
End Grammar.
#[export] Hint Resolve c_if_not_exists c_create c_alter c_compound_q : reads.
