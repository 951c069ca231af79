(** C22 (modes), C27 (dialects), C28 (reserved words) and C33 (WITH queries), for all inputs. *)
From Verif Require Export PropsSafe RunFacts.
Local Open Scope string_scope.
Local Open Scope list_scope.

(** ** Specification *)
(** The dialect-specific syntax in a value, and where it would be reported.  What counts as a
    use of which feature, which dialects have it and how it is reported is in [Ast.v]
    ([feature], [feature_in], [feature_message]); the instances of [Atoms] there list the uses
    (e.g. [UPDATE ... RETURNING]: an [update] whose [up_returning] is present). *)
Definition features_in {A} {I : Atoms A} (a : A) : list (feature * span) :=
  flat_map (fun x => match x with AFeature f s => [(f, s)] | _ => [] end) (atoms a).
(** An Error with the given message at the given place. *)
Definition error_at (m : text) (s : span) (l : list issue) : Prop :=
  exists i, In i l /\ i_level i = Error /\ i_message i = m /\ i_span i = s.
(** A reserved word (in any case). *)
Definition reserved_word_text (v : text) : Prop := kw_reserved (kw_of_text (upper v)) = true.

(** ** The environment that knows the issues at the end *)
Definition env3 (sr : text) (o : options) (out : list issue) : env := env_of (Some out) 0 (blen sr) sr o _ _ _ (weights0 sr).
Section Both3.
Context {A : Type} {I : Atoms A}.
Variables (sr : text) (o : options) (a : A) (out : list issue) (log : list (N * span)).
Hypothesis H : @safe (env3 sr o out) A I a out log.
Lemma both_features f s : In (f, s) (features_in a) -> feature_in f (o_dialect o) = false ->
  match f with FWithStatement | FNoRows => errors out <> [] | _ => error_at (txt (feature_message f)) s out end.
Proof.
  intros Hx Hf. unfold features_in in Hx. apply in_flat_map in Hx as (x & X1 & X2).
  pose proof (in_atoms _ _ _ _ _ _ H x X1) as O. destruct x; cbn in X2; try easy. destruct X2 as [X2|[]]. injection X2 as -> ->.
  destruct O as [O|O]; [cbn in O; congruence|]. unfold finally in O. cbn [fin_issues env3 env_of] in O. destruct f; try exact O.
  all: unfold errors, nerrs in *; destruct (filter is_error out); [cbn in O; lia|discriminate].
Qed.
Lemma both_no_feature f i : In i out -> feature_in f (o_dialect o) = true -> i_message i <> txt (feature_message f).
Proof.
  intros Hi Hf E. pose proof (f_issues _ _ _ H) as F. rewrite Forall_forall in F. apply F in Hi as [Hi|[(v & _ & Hi & _)|[(v & _ & Hi & _)|(v & Hi & _)]]].
  - unfold plain_in in Hi. rewrite !andb_true_iff in Hi. destruct Hi as [_ Hi]. rewrite forallb_forall in Hi.
    assert (Hin : In f all_features) by (destruct f; cbn; tauto). apply Hi in Hin. cbn [opts env3 env_of] in Hin. rewrite Hf, E in Hin.
    rewrite (proj2 (text_eqb_eq _ _) eq_refl) in Hin. discriminate.
  - rewrite E in Hi. unfold msg_reserved in Hi. destruct f; discriminate Hi.
  - rewrite E in Hi. unfold msg_caps in Hi. destruct f; discriminate Hi.
  - rewrite E in Hi. unfold msg_unquoted in Hi. destruct f; discriminate Hi.
Qed.
Lemma both_reserved v s : In (v, s) (idents_in a) -> at_span sr s v -> reserved_word_text v -> error_at (msg_reserved v) s out.
Proof.
  intros Hx At R. unfold idents_in in Hx. apply in_flat_map in Hx as (x & X1 & X2).
  pose proof (in_atoms _ _ _ _ _ _ H x X1) as O. destruct x; cbn in X2; try easy. destruct X2 as [X2|[]]. injection X2 as -> ->.
  destruct O as (w & [O1 _] & _ & O2 & _). change SafeLogic.src with sr in O1. assert (w = v) by (apply slice_iff_at in At, O1; congruence).
  exact (O2 H0 R).
Qed.
Lemma both_only_reserved i w : In i out -> i_message i = txt "'" ++ w ->
  exists v, i_message i = msg_reserved v /\ i_level i = Error /\ at_span sr (i_span i) v /\ reserved_word_text v.
Proof.
  intros Hi E. pose proof (f_issues _ _ _ H) as F. rewrite Forall_forall in F. apply F in Hi as [Hi|[(v & E1 & E2 & E3 & E4)|[(v & _ & E2 & _)|(v & E2 & _)]]]; [|eauto|rewrite E in E2; discriminate E2|rewrite E in E2; discriminate E2].
  unfold plain_in in Hi. rewrite E in Hi. cbn in Hi. discriminate.
Qed.
End Both3.
Lemma statement_facts3 src issues o r out : parse_statement_api src issues o = Returns r out ->
  @safe (env3 src o (new_issues issues out)) _ _ r (new_issues issues out) (final_log parse_statement_body src o).
Proof. intros H. exact (proj1 (statement_facts _ _ _ _ _ H (env3 src o (new_issues issues out)) eq_refl eq_refl (conj eq_refl (conj eq_refl eq_refl)))). Qed.
Lemma statements_facts3 src issues o r out : parse_statements src issues o = Returns r out ->
  @safe (env3 src o (new_issues issues out)) _ _ r (new_issues issues out) (final_log parse_statements_loop src o).
Proof. intros H. exact (proj1 (statements_facts _ _ _ _ _ H (env3 src o (new_issues issues out)) eq_refl eq_refl (conj eq_refl (conj eq_refl eq_refl)))). Qed.

(** ** C27 *)
(** Wherever the AST contains syntax the dialect does not have, there is an Error for it. *)
Theorem C27_statement_reported_partial : forall src issues o r out f s,
  parse_statement_api src issues o = Returns r out -> In (f, s) (features_in r) ->
  feature_in f (o_dialect o) = false -> f <> FWithStatement -> f <> FNoRows ->
  error_at (txt (feature_message f)) s (new_issues issues out).
Proof.
  intros src issues o r out f s H Hx Hf Hn Hr. pose proof (both_features _ _ _ _ _ (statement_facts3 _ _ _ _ _ H) f s Hx Hf) as X. destruct f; auto; congruence.
Qed.
Theorem C27_statements_reported_partial : forall src issues o l out f s,
  parse_statements src issues o = Returns l out -> In (f, s) (features_in l) ->
  feature_in f (o_dialect o) = false -> f <> FWithStatement -> f <> FNoRows ->
  error_at (txt (feature_message f)) s (new_issues issues out).
Proof.
  intros src issues o r out f s H Hx Hf Hn Hr. pose proof (both_features _ _ _ _ _ (statements_facts3 _ _ _ _ _ H) f s Hx Hf) as X. destruct f; auto; congruence.
Qed.
(** Under a dialect that has it, this Error is never reported. *)
Theorem C27_statement_not_reported : forall src issues o r out f i,
  parse_statement_api src issues o = Returns r out -> In i (new_issues issues out) ->
  feature_in f (o_dialect o) = true -> i_message i <> txt (feature_message f).
Proof. intros src issues o r out f i H Hi Hf. exact (both_no_feature _ _ _ _ _ (statement_facts3 _ _ _ _ _ H) f i Hi Hf). Qed.
Theorem C27_statements_not_reported : forall src issues o l out f i,
  parse_statements src issues o = Returns l out -> In i (new_issues issues out) ->
  feature_in f (o_dialect o) = true -> i_message i <> txt (feature_message f).
Proof. intros src issues o r out f i H Hi Hf. exact (both_no_feature _ _ _ _ _ (statements_facts3 _ _ _ _ _ H) f i Hi Hf). Qed.

(** The first theorem read off the AST, for statements at the top. *)
Corollary C27_update_returning : forall src issues o u s es out,
  parse_statement_api src issues o = Returns (Some (SUpdate u)) out -> up_returning u = Some (s, es) ->
  is_postgresql (o_dialect o) = false -> error_at (txt "Only support by postgesql") s (new_issues issues out).
Proof.
  intros src issues o u s es out H E D. apply (C27_statement_reported_partial _ _ _ _ _ FUpdateReturning s H); [|exact D|discriminate..].
  destruct u as [a b c d e f g]. cbn in E. subst g. apply in_flat_map. exists (AFeature FUpdateReturning s). split; [|now left].
  change (In (AFeature FUpdateReturning s) (atoms (mkUpdate a b c d e f (Some (s, es))))). cbn [atoms Atoms_update]. apply in_or_app. right. now left.
Qed.
Corollary C27_with : forall src issues o w out,
  parse_statement_api src issues o = Returns (Some (SWithQuery w)) out -> is_postgresql (o_dialect o) = false ->
  exists s, error_at (txt "WITH statements only supported by postgresql") s (new_issues issues out).
Proof.
  intros src issues o w out H D.
  assert (X : exists s, In (FWith, s) (features_in (Some (SWithQuery w)))).
  { destruct w as [a b c]. assert (Y : exists s, In (AFeature FWith s) (used FWith (spn (mkWithQuery a b c)))).
    { pose proof (stmt_some (SWithQuery (mkWithQuery a b c))) as N. change (spn (mkWithQuery a b c) <> SNone) in N.
      destruct (spn (mkWithQuery a b c)) as [p| |s]; [exists (0, 0); now left|congruence|exists s; now left]. }
    destruct Y as [s Y]. exists s. apply in_flat_map. exists (AFeature FWith s). split; [|now left].
    change (In (AFeature FWith s) (atoms (mkWithQuery a b c))). cbn [atoms Atoms_with_query]. apply in_or_app. now right. }
  destruct X as [s X]. exists s. apply (C27_statement_reported_partial _ _ _ _ _ FWith s H X); [exact D|discriminate..].
Qed.
Corollary C27_create_type : forall src issues o c out,
  parse_statement_api src issues o = Returns (Some (SCreateTypeEnum c)) out -> is_postgresql (o_dialect o) = false ->
  error_at (txt "CREATE TYPE only supported by postgresql") (cte_type c) (new_issues issues out).
Proof.
  intros src issues o c out H D. apply (C27_statement_reported_partial _ _ _ _ _ FCreateType _ H); [|exact D|discriminate..].
  destruct c as [a b c d e f]. apply in_flat_map. exists (AFeature FCreateType c). split; [|now left].
  change (In (AFeature FCreateType c) (atoms (mkCreateTypeEnum a b c d e f))). cbn [atoms Atoms_cte]. apply in_or_app. right. now left.
Qed.
Corollary C27_insert_on : forall src issues o i out,
  parse_statement_api src issues o = Returns (Some (SInsertReplace i)) out ->
  (is_maria (o_dialect o) = false -> ir_on_duplicate i <> None -> exists s, error_at (txt "Only support by mariadb") s (new_issues issues out)) /\
  (is_postgresql (o_dialect o) = false -> ir_on_conflict i <> None -> exists s, error_at (txt "Only support by postgesql") s (new_issues issues out)).
Proof.
  intros src issues o x out H. destruct x as [a b c d e f g h i j k]. cbn [ir_on_duplicate ir_on_conflict]. split; intros D N.
  - assert (X : exists s, In (FOnDuplicate, s) (features_in (Some (SInsertReplace (mkInsertReplace a b c d e f g h i j k))))).
    { destruct i as [[s l]|]; [|congruence].
      assert (Y : exists s', In (AFeature FOnDuplicate s') (used FOnDuplicate (spn (Some (mkSetPairs s l))))).
      { assert (Z : spn (Some (mkSetPairs s l)) <> SNone) by (apply (jn_l (spn s) (spn l)), some_span).
        destruct (spn (Some (mkSetPairs s l))) as [p| |s']; [exists (0, 0); now left|congruence|exists s'; now left]. }
      destruct Y as [s' Y]. exists s'. apply in_flat_map. exists (AFeature FOnDuplicate s'). split; [|now left].
      change (In (AFeature FOnDuplicate s') (atoms (mkInsertReplace a b c d e f g h (Some (mkSetPairs s l)) j k))). cbn [atoms Atoms_insert_replace]. do 2 (apply in_or_app; left). apply in_or_app. now right. }
    destruct X as [s X]. exists s. apply (C27_statement_reported_partial _ _ _ _ _ FOnDuplicate s H X); [exact D|discriminate..].
  - assert (X : exists s, In (FOnConflict, s) (features_in (Some (SInsertReplace (mkInsertReplace a b c d e f g h i j k))))).
    { destruct j as [[p q t]|]; [|congruence].
      assert (Y : exists s', In (AFeature FOnConflict s') (atoms (mkOnConflict p q t))).
      { cbn [atoms Atoms_on_conflict].
        assert (Z : exists s', In (AFeature FOnConflict s') (used FOnConflict (spn (mkOnConflict p q t)))).
        { assert (Z : spn (mkOnConflict p q t) <> SNone) by (apply (jn_l (jn (spn p) (spn q)) (spn t)), jn_l, some_span).
          destruct (spn (mkOnConflict p q t)) as [w| |s']; [exists (0, 0); now left|congruence|exists s'; now left]. }
        destruct Z as [s' Z]. exists s'. apply in_or_app. now right. }
      destruct Y as [s' Y]. exists s'. apply in_flat_map. exists (AFeature FOnConflict s'). split; [|now left].
      change (In (AFeature FOnConflict s') (atoms (mkInsertReplace a b c d e f g h i (Some (mkOnConflict p q t)) k))). cbn [atoms Atoms_insert_replace].
      do 3 (apply in_or_app; left). apply in_or_app. left. apply in_or_app. now right. }
    destruct X as [s X]. exists s. apply (C27_statement_reported_partial _ _ _ _ _ FOnConflict s H X); [exact D|discriminate..].
Qed.

(** What [C27_..._reported_partial] leaves out.  Names in backticks are reported in PostgreSQL
    where [consume_plain_identifier] reads them, operator classes where an index column is read, ... *)
Theorem C27_backtick : forall st v, s_tok st = TIdent v QUOTED_IDENTIFIER -> o_dialect (s_opts st) = PostgreSQL ->
  match run consume_plain_identifier st with
  | ROk i st' => id_value i = v /\ exists e, s_issues st' = s_issues st ++ [e] /\ i_level e = Error /\ i_span e = s_span st /\
      i_message e = txt "quoted identifiers not supported by postgresql"
  | RErr _ | RFuel => False
  | RPanic _ => True
  end.
Proof.
  intros st v T D. unfold consume_plain_identifier. rewrite run_bind, run_token, T. cbn. rewrite D. cbn. unfold p_issue. destruct (slice _ _ _); [|exact I]. cbn. unfold p_next. cbn.
  destruct (s_peek st) as [[t' s']|]; [cbn; eauto 10|]. destruct (next_token (s_lex st)) as [[t' s'] l'|]; [cbn; eauto 10|exact I].
Qed.
Theorem C27_opclass : forall st st1 i s' x, run consume_plain_identifier st = ROk i st1 -> kw_assoc opclasses (s_tok st1) = Some x ->
  is_postgresql (o_dialect (s_opts st1)) = false -> s_span st1 = s' ->
  match run parse_index_column st with
  | ROk j st' => j = i /\ exists e, s_issues st' = s_issues st1 ++ [e] /\ i_level e = Error /\ i_span e = s' /\ i_message e = txt "Opclasses not supporetd"
  | RErr _ | RFuel => False
  | RPanic _ => True
  end.
Proof.
  intros st st1 i s' x H K D E. unfold parse_index_column. rewrite run_bind, H, run_bind, run_token, K, run_bind, run_consume.
  unfold p_next. destruct (s_peek st1) as [[t2 s2]|].
  - cbn. rewrite D. cbn. unfold p_issue. destruct (slice _ _ _); [|exact I]. cbn. subst. eauto 10.
  - destruct (next_token (s_lex st1)) as [[t2 s2] l2|]; [|exact I]. cbn. rewrite D. cbn. unfold p_issue. destruct (slice _ _ _); [|exact I]. cbn. subst. eauto 10.
Qed.
(** ... but the first part of a name in an expression is not checked: the claim fails there. *)
Theorem C27_refuted : exists src o, o_dialect o = PostgreSQL /\
  match parse_statement_api src [] o with Returns (Some s) [] => exists v sp, In (v, sp) (idents_in s) /\ at_span src sp (txt "`" ++ v ++ txt "`") | _ => False end.
Proof.
  exists (txt "SELECT `a`"), (mkOptions PostgreSQL ArgNone false false false). split; [reflexivity|].
  assert (E : match parse_statement_api (txt "SELECT `a`") [] (mkOptions PostgreSQL ArgNone false false false) with
    | Returns (Some s) [] => idents_in s = [(txt "a", (7, 10))] | _ => False end) by (vm_compute; reflexivity).
  destruct (parse_statement_api _ _ _) as [[s|] [|]| |]; try contradiction. exists (txt "a"), (7, 10). rewrite E. split; [now left|]. apply slice_iff_at. reflexivity.
Qed.
Example C27_applies :
  match parse_statement_api (txt "WITH x AS (DELETE FROM t) UPDATE t SET a = 1 RETURNING a") [] default_options with
  | Returns r out => features_in r = [(FUpdateReturning, (45, 54)); (FWith, (0, 56))] /\
      map (fun i => (i_message i, i_span i)) out = [(txt "Only support by postgesql", (45, 54)); (txt "WITH statements only supported by postgresql", (0, 56))]
  | _ => False end /\
  match parse_statement_api (txt "SELECT * FROM t USE INDEX (i) FOR NO KEY UPDATE") [] default_options with
  | Returns r out => map fst (features_in r) = [FIndexHint; FKeyLock] /\ map i_message out = [txt "Only support by PostgreSQL"] | _ => False end /\
  match parse_statement_api (txt "SELECT * FROM t USE INDEX (i) FOR NO KEY UPDATE") [] (mkOptions PostgreSQL ArgNone false false false) with
  | Returns r out => map fst (features_in r) = [FIndexHint; FKeyLock] /\ map i_message out = [txt "Index hints only supported by MariaDb"] | _ => False end.
Proof. vm_compute. repeat split; reflexivity. Qed.

(** ** C28 *)
(** A name in the AST that is written without quotes and is a reserved word is reported there, ... *)
Theorem C28_statement_reserved : forall src issues o r out v s,
  parse_statement_api src issues o = Returns r out -> In (v, s) (idents_in r) -> at_span src s v -> reserved_word_text v ->
  error_at (txt "'" ++ v ++ txt "' is a reserved identifier use `" ++ v ++ txt "`") s (new_issues issues out).
Proof. intros src issues o r out v s H. exact (both_reserved _ _ _ _ _ (statement_facts3 _ _ _ _ _ H) v s). Qed.
Theorem C28_statements_reserved : forall src issues o l out v s,
  parse_statements src issues o = Returns l out -> In (v, s) (idents_in l) -> at_span src s v -> reserved_word_text v ->
  error_at (txt "'" ++ v ++ txt "' is a reserved identifier use `" ++ v ++ txt "`") s (new_issues issues out).
Proof. intros src issues o r out v s H. exact (both_reserved _ _ _ _ _ (statements_facts3 _ _ _ _ _ H) v s). Qed.
(** ... and this is reported of reserved words only (no other message begins with a quote). *)
Theorem C28_statement_only_reserved : forall src issues o r out i w,
  parse_statement_api src issues o = Returns r out -> In i (new_issues issues out) -> i_message i = txt "'" ++ w ->
  exists v, i_message i = txt "'" ++ v ++ txt "' is a reserved identifier use `" ++ v ++ txt "`" /\ i_level i = Error /\
    at_span src (i_span i) v /\ reserved_word_text v.
Proof. intros src issues o r out i w H. exact (both_only_reserved _ _ _ _ _ (statement_facts3 _ _ _ _ _ H) i w). Qed.
Theorem C28_statements_only_reserved : forall src issues o l out i w,
  parse_statements src issues o = Returns l out -> In i (new_issues issues out) -> i_message i = txt "'" ++ w ->
  exists v, i_message i = txt "'" ++ v ++ txt "' is a reserved identifier use `" ++ v ++ txt "`" /\ i_level i = Error /\
    at_span src (i_span i) v /\ reserved_word_text v.
Proof. intros src issues o r out i w H. exact (both_only_reserved _ _ _ _ _ (statements_facts3 _ _ _ _ _ H) i w). Qed.
(** Wherever a name is read, also where it does not end up in an AST: the Error is reported
    exactly for reserved words. *)
Definition reserved_token (t : tok) : bool := match t with TIdent _ k => kw_reserved k | _ => false end.
Definition reads_name (p : prog ident) (t : tok) (s : span) (st : pst) : Prop :=
  match run p st with
  | ROk i st' => exists new, s_issues st' = s_issues st ++ new /\
      if reserved_token t then map i_message new = [msg_reserved (id_value i)] /\ map i_level new = [Error] /\ map i_span new = [s]
      else Forall (fun e => forall w, i_message e <> txt "'" ++ w) new
  | _ => True
  end.
Lemma run_issue l t s st : run (perf (OIssue l t s [])) st =
  match slice (s_isrc st) (fst s) (snd s) with
  | Some w => ROk tt (set_issues st (s_issues st ++ [mkIssue l t s w []]))
  | None => RPanic PBadSlice end.
Proof. rewrite run_perf. cbn [exec]. unfold p_issue. destruct (slice _ _ _); reflexivity. Qed.
Definition check_name (lv : level) (k : kw) (v : text) (s : span) (pg : bool) : prog unit :=
  if kw_reserved k then err_frags (msg_reserved v) s []
  else if negb (kw_eqb k QUOTED_IDENTIFIER) then perf (OLintIdent lv v s)
  else if pg then err "quoted identifiers not supported by postgresql" s else Ret tt.
Lemma check_name_issues lv k v s pg st : match run (check_name lv k v s pg) st with
  | ROk _ st' => exists new, s_issues st' = s_issues st ++ new /\
      if kw_reserved k then map i_message new = [msg_reserved v] /\ map i_level new = [Error] /\ map i_span new = [s]
      else Forall (fun e => forall w, i_message e <> txt "'" ++ w) new
  | _ => True end.
Proof.
  unfold check_name. destruct (kw_reserved k).
  - unfold err_frags. rewrite run_issue. destruct (slice _ _ _); [|exact I]. eexists. split; [reflexivity|auto].
  - destruct (negb _).
    + rewrite run_perf. cbn [exec]. destruct (o_warn_unquoted (s_opts st)); [|exists []; split; [now rewrite app_nil_r|constructor]].
      unfold p_issue. destruct (slice _ _ _); [|exact I]. eexists. split; [reflexivity|]. constructor; [|constructor]. intros w. discriminate.
    + destruct pg; [|exists []; split; [now rewrite app_nil_r|constructor]]. unfold err, err_frags. rewrite run_issue. destruct (slice _ _ _); [|exact I].
      eexists. split; [reflexivity|]. constructor; [|constructor]. intros w. discriminate.
Qed.
Theorem C28_consume_identifier : forall st, reads_name consume_plain_identifier (s_tok st) (s_span st) st.
Proof.
  intros st. unfold reads_name, consume_plain_identifier. rewrite run_bind, run_token.
  assert (G : forall st1 v, match run (c <- consume ;; Ret (mkIdent v c)) st1 with ROk i st' => id_value i = v /\ s_issues st' = s_issues st1 | _ => True end).
  { intros st1 v. rewrite run_bind, run_consume. unfold p_next. destruct (s_peek st1) as [[t2 s2]|]; [cbn; auto|].
    destruct (next_token (s_lex st1)) as [[t2 s2] l2|]; [cbn; auto|exact I]. }
  destruct (s_tok st) eqn:T; cbn [reserved_token]; try (cbn; unfold p_issue; destruct (slice _ _ _); exact I).
  - rewrite run_bind, run_span, run_bind. unfold dialect_ at 1. rewrite run_perf. cbn [exec]. rewrite run_bind.
    pose proof (check_name_issues Error k t (s_span st) (is_postgresql (o_dialect (s_opts st))) st) as X. unfold check_name in X.
    destruct (run (if kw_reserved k then _ else _) st) as [u st1|st1|w|]; auto. specialize (G st1 t).
    destruct (run _ st1) as [i st2|st2|w|]; auto. destruct G as [-> ->]. exact X.
  - rewrite run_bind. unfold dialect_. rewrite run_perf. cbn [exec]. destruct (is_postgresql _).
    + specialize (G st t). destruct (run _ st) as [i st2|st2|w|]; auto. destruct G as [_ ->]. exists []. split; [now rewrite app_nil_r|constructor].
    + cbn. unfold p_issue. destruct (slice _ _ _); exact I.
Qed.
Theorem C28_token_identifier : forall st t s, reads_name (token_to_plain_identifier t s) t s st.
Proof.
  intros st t s. unfold reads_name, token_to_plain_identifier. destruct t; cbn [reserved_token]; try (cbn; unfold p_issue; destruct (slice _ _ _); exact I).
  rewrite run_bind. pose proof (check_name_issues Warning k t s false st) as X. unfold check_name in X.
  destruct (run (if kw_reserved k then _ else _) st) as [u st1|st1|w|]; auto.
Qed.
Example C28_applies :
  match parse_statement_api (txt "CREATE TABLE select (`from` INT, into INT)") [] default_options with
  | Returns r out => idents_in r = [(txt "select", (13, 19)); (txt "from", (21, 27)); (txt "into", (33, 37))] /\
      map i_span out = [(13, 19); (33, 37)] | _ => False end /\
  reserved_word_text (txt "select") /\ reserved_word_text (txt "into") /\ ~ reserved_word_text (txt "a").
Proof. vm_compute. repeat split; discriminate. Qed.

(** ** C33 *)
(** The statements of the WITH queries of a statement that is returned are data statements
    unless an Error is reported. *)
Definition data_statement (s : stmt) : Prop :=
  match s with SSelect _ | SInsertReplace _ | SUpdate _ | SDelete _ => True | _ => False end.
Lemma is_data_iff s : is_data s = true <-> data_statement s.
Proof. destruct s; cbn; intuition discriminate. Qed.
Theorem C33_statement_features : forall src issues o r out f s,
  parse_statement_api src issues o = Returns r out -> errors (new_issues issues out) = [] ->
  In (f, s) (features_in r) -> feature_in f (o_dialect o) = true.
Proof.
  intros src issues o r out f s H E Hx. destruct (feature_in f (o_dialect o)) eqn:Hf; [reflexivity|exfalso].
  pose proof (both_features _ _ _ _ _ (statement_facts3 _ _ _ _ _ H) f s Hx Hf) as X.
  assert (Y : forall m s, error_at m s (new_issues issues out) -> False).
  { intros m0 s0 (i & I1 & I2 & _). assert (Z : In i (errors (new_issues issues out))) by (apply filter_In; split; [exact I1|unfold is_error; now rewrite I2]).
    rewrite E in Z. destruct Z. }
  destruct f; try (now apply Y in X); now rewrite E in X.
Qed.
Theorem C33_statements_features : forall src issues o l out f s,
  parse_statements src issues o = Returns l out -> errors (new_issues issues out) = [] ->
  In (f, s) (features_in l) -> feature_in f (o_dialect o) = true.
Proof.
  intros src issues o r out f s H E Hx. destruct (feature_in f (o_dialect o)) eqn:Hf; [reflexivity|exfalso].
  pose proof (both_features _ _ _ _ _ (statements_facts3 _ _ _ _ _ H) f s Hx Hf) as X.
  assert (Y : forall m s, error_at m s (new_issues issues out) -> False).
  { intros m0 s0 (i & I1 & I2 & _). assert (Z : In i (errors (new_issues issues out))) by (apply filter_In; split; [exact I1|unfold is_error; now rewrite I2]).
    rewrite E in Z. destruct Z. }
  destruct f; try (now apply Y in X); now rewrite E in X.
Qed.

(** [with_inside w a]: the WITH query [w] occurs in [a] (its atoms are among those of [a]). *)
Definition with_inside {A} {I : Atoms A} (w : with_query stmt) (a : A) : Prop := incl (atoms w) (atoms a).
Lemma with_data A (I : Atoms A) (a : A) o w : (forall f s, In (f, s) (features_in a) -> feature_in f (o_dialect o) = true) -> with_inside w a ->
  data_statement (wq_statement w) /\ Forall (fun b => data_statement (wb_statement b)) (wq_blocks w).
Proof.
  intros H Hi. destruct w as [s bs c]. cbn [wq_statement wq_blocks].
  assert (F : forall f p, In (AFeature f p) (atoms (mkWithQuery s bs c)) -> feature_in f (o_dialect o) = true).
  { intros f p Hp. apply (H f p). apply in_flat_map. exists (AFeature f p). split; [now apply Hi|now left]. }
  clear H Hi. cbn [atoms Atoms_with_query] in F. split.
  - apply is_data_iff. destruct (is_data c) eqn:E; [reflexivity|exfalso].
    assert (Y : exists p, In (AFeature FWithMain p) (used FWithMain (spn c))).
    { pose proof (stmt_some c) as N. destruct (spn c) as [p| |p]; [exists (0, 0); now left|congruence|exists p; now left]. }
    destruct Y as [p Y]. specialize (F FWithMain p). discriminate F. apply in_or_app. left. apply in_or_app. now right.
  - apply Forall_forall. intros b Hb. apply is_data_iff. destruct (is_data (wb_statement b)) eqn:E; [reflexivity|exfalso].
    specialize (F FWithStatement (wb_as b)). discriminate F. apply in_or_app. left. apply in_or_app. left. apply in_or_app. left. apply in_or_app. right.
    change (In (AFeature FWithStatement (wb_as b)) (flat_map atoms bs)). apply in_flat_map. exists b. split; [exact Hb|]. destruct b as [b1 b2 b3 b4 b5]. cbn [wb_statement wb_as] in *.
    cbn [atoms Atoms_with_block]. rewrite E. apply in_or_app. right. now left.
Qed.
Theorem C33_statement_with : forall src issues o r out w,
  parse_statement_api src issues o = Returns r out -> errors (new_issues issues out) = [] -> with_inside w r ->
  data_statement (wq_statement w) /\ Forall (fun b => data_statement (wb_statement b)) (wq_blocks w).
Proof. intros src issues o r out w H E. apply (with_data _ _ r o). intros f s. now apply (C33_statement_features src issues o r out). Qed.
Theorem C33_statements_with : forall src issues o l out w,
  parse_statements src issues o = Returns l out -> errors (new_issues issues out) = [] -> with_inside w l ->
  data_statement (wq_statement w) /\ Forall (fun b => data_statement (wb_statement b)) (wq_blocks w).
Proof. intros src issues o r out w H E. apply (with_data _ _ r o). intros f s. now apply (C33_statements_features src issues o r out). Qed.
(** In particular, at the top. *)
Corollary C33_top : forall src issues o w out,
  parse_statement_api src issues o = Returns (Some (SWithQuery w)) out -> errors (new_issues issues out) = [] ->
  data_statement (wq_statement w) /\ Forall (fun b => data_statement (wb_statement b)) (wq_blocks w).
Proof. intros src issues o w out H E. apply (C33_statement_with _ _ _ _ _ w H E). intros a Ha. exact Ha. Qed.
Corollary C33_top_in_script : forall src issues o l w out,
  parse_statements src issues o = Returns l out -> errors (new_issues issues out) = [] -> In (SWithQuery w) l ->
  data_statement (wq_statement w) /\ Forall (fun b => data_statement (wb_statement b)) (wq_blocks w).
Proof.
  intros src issues o l w out H E Hl. apply (C33_statements_with _ _ _ _ _ w H E). intros a Ha. change (In a (flat_map atoms l)). apply in_flat_map. exists (SWithQuery w). auto.
Qed.
Example C33_applies :
  match parse_statement_api (txt "WITH x AS (SELECT 1), y AS (DELETE FROM t) SELECT 2") [] (mkOptions PostgreSQL ArgNone false false false) with
  | Returns (Some (SWithQuery w)) [] => length (wq_blocks w) = 2 | _ => False end /\
  match parse_statement_api (txt "WITH x AS (COMMIT) BEGIN") [] (mkOptions PostgreSQL ArgNone false false false) with
  | Returns (Some (SWithQuery w)) out => length (errors out) = 2 | _ => False end.
Proof. vm_compute. auto. Qed.

(** ** C22 *)
(** [parse_statements], but with the mode of the parser (whether BEGIN and END are those of a
    compound statement) reset to the initial one before every statement. *)
Definition reset_statements_step (r : recs) (ans : list stmt) : prog (list stmt + list stmt) :=
  perf (OSetPermit false) ;;; parse_statements_step r ans.
Definition parse_statements_reset (src : text) (issues : list issue) (o : options) : outcome (list stmt) :=
  match parser_new src src issues o with
  | XOk st _ => outcome_of (run (loop (r_n (knot (budget src))) (reset_statements_step (knot (budget src))) []) st)
  | XPanic w => Panics w
  | XFuel => NoFuel
  end.
Lemma setp_same S : s_permit (g_st S) = false -> setp S false = S.
Proof. destruct S as [[] log]. cbn. now intros ->. Qed.
Lemma rung_nerr A (p : prog A) S : match rung p S with GOk _ S' | GErr S' => nerr S <= nerr S' | _ => True end.
Proof.
  pose proof (run_grown _ p (g_st S)) as G. rewrite rung_run in G. destruct (rung p S) as [a S'|S'|w|]; cbn [forget] in G; auto;
    destruct G as (_ & _ & _ & n & E & _); unfold nerr, nerrs; rewrite E, filter_app, app_length; lia.
Qed.
Section Reset.
Context {V : env} (Hn : fin_issues = None).
Variable r : recs.
Context {K : recs_ok r} {KC : recs_cp r}.
Lemma reset_same n : forall ans S, wf S -> dlive S -> m S < r_n r - 1 -> m S < n -> Forall (ok nb) (atoms ans) -> s_permit (g_st S) = false ->
  ~ has_word src "TRIGGER" \/ match rung (loop n (parse_statements_step r) ans) S with GOk _ S' => nerr S' = nerr S | _ => False end ->
  rung (loop n (reset_statements_step r) ans) S = rung (loop n (parse_statements_step r) ans) S.
Proof.
  assert (Hc : forall S, compat S) by (intros S; unfold compat, finally; now rewrite Hn).
  induction n as [|n IH]; intros ans S Hw Hd Hm Hl Ha Hp Hx; [lia|]. cbn [loop] in *.
  pose proof (statements_step_wp r ans S Hw Hd Hm Ha) as H. unfold wp in H. rewrite rung_bind in *. 
  assert (E : rung (reset_statements_step r ans) S = rung (parse_statements_step r ans) S).
  { unfold reset_statements_step. change (rung (perf (OSetPermit false);;; parse_statements_step r ans) S) with (rung (parse_statements_step r ans) (setp S false)). now rewrite setp_same. }
  rewrite E. clear E. rewrite rung_bind. pose proof (rung_nerr _ (parse_statements_step r ans) S) as N1. destruct (rung (parse_statements_step r ans) S) as [x S1|S1|w|]; auto.
  destruct (H (Hc _)) as (X1 & D1 & M1 & A1 & O1 & T1). destruct x as [l|l]; cbn [wres sumv] in *; [|reflexivity].
  destruct D1 as [D1|(_ & U & D)].
  - apply IH; auto; try lia; [now apply (ex_wf S)| |].
    + destruct (c_permit _ _ X1) as [P|[P Q]]; [now rewrite P|exfalso]. change (nerr (setd S (s_delim (g_st S1)))) with (nerr S) in Q.
      destruct Hx as [Hx|Hx]; [contradiction|]. pose proof (rung_nerr _ (loop n (parse_statements_step r) l) S1) as N2.
      destruct (rung (loop n (parse_statements_step r) l) S1); try contradiction. lia.
    + destruct Hx as [Hx|Hx]; [now left|right]. pose proof (rung_nerr _ (loop n (parse_statements_step r) l) S1) as N2.
      destruct (rung (loop n (parse_statements_step r) l) S1); try contradiction. lia.
  - destruct n as [|n]; [reflexivity|]. cbn [loop]. rewrite !rung_bind. unfold reset_statements_step at 1.
    change (rung (perf (OSetPermit false);;; parse_statements_step r l) S1) with (rung (parse_statements_step r l) (setp S1 false)).
    assert (Q : forall S2, stuck S2 -> rung (parse_statements_step r l) S2 = GFuel)
      by (intros S2 U2; unfold parse_statements_step; now rewrite rung_bind, stuck_loops).
    rewrite (Q S1 U), (Q (setp S1 false)); [reflexivity|]. destruct U. constructor; auto.
Qed.
End Reset.
(** If no Error is reported, or the word TRIGGER does not occur, every statement is parsed in the
    initial mode. *)
Theorem C22_mode_partial : forall src issues o, ~ has_word src "TRIGGER" ->
  parse_statements_reset src issues o = parse_statements src issues o.
Proof.
  intros sr issues o Ht. unfold parse_statements_reset, parse_statements, parse_statements_n.
  rewrite (api_prepend _ (loop _ (reset_statements_step _) [])), (api_prepend _ (parse_statements_loop (knot (budget sr)))). f_equal.
  pose proof (@init_wf (env0 sr o) I) as X. cbn [src opts env0 env_of] in X.
  assert (P : forall st y, parser_new sr sr [] o = XOk st y -> s_permit st = false).
  { intros st y. unfold parser_new. destruct (next_token (lex_new sr)) as [[t s] l|]; [|discriminate]. intros H. now injection H as <- _. }
  destruct (parser_new sr sr [] o) as [st _x|w|]; auto. specialize (P _ _ eq_refl). destruct X as (Hw & Hm & He & Hd). f_equal.
  rewrite (rung_run _ _ (mkG st [])), (rung_run _ (parse_statements_loop _) (mkG st [])). f_equal. unfold parse_statements_loop.
  assert (Lm : m (mkG st []) < S (S (length sr)) - 0) by (change SafeLogic.src with sr in Hm; lia).
  apply (@reset_same (env0 sr o) eq_refl (knot (budget sr)) _ _); [exact Hw|exact Hd|rewrite r_n_knot; unfold budget; lia|rewrite r_n_knot; unfold budget; lia|apply Forall_nil|exact P|now left].
Qed.
Theorem C22_error_free : forall src issues o l out,
  parse_statements src issues o = Returns l out -> errors (new_issues issues out) = [] ->
  parse_statements_reset src issues o = Returns l out.
Proof.
  intros sr issues o l out H Ee. rewrite <- H. apply statements_from_empty in H. unfold parse_statements_reset, parse_statements, parse_statements_n in *.
  rewrite (api_prepend _ (loop _ (reset_statements_step _) [])), (api_prepend _ (parse_statements_loop (knot (budget sr))) sr sr issues). f_equal.
  pose proof (@init_wf (env0 sr o) I) as X. cbn [src opts env0 env_of] in X.
  assert (P : forall st y, parser_new sr sr [] o = XOk st y -> s_permit st = false).
  { intros st y. unfold parser_new. destruct (next_token (lex_new sr)) as [[t s] l'|]; [|discriminate]. intros H0. now injection H0 as <- _. }
  destruct (parser_new sr sr [] o) as [st _x|w|]; auto. specialize (P _ _ eq_refl). destruct X as (Hw & Hm & He & Hd). f_equal.
  rewrite (rung_run _ _ (mkG st [])), (rung_run _ (parse_statements_loop _) (mkG st [])). f_equal. 
  rewrite (rung_run _ (parse_statements_loop _) (mkG st [])) in H. unfold parse_statements_loop in *.
  assert (Lm : m (mkG st []) < S (S (length sr)) - 0) by (change SafeLogic.src with sr in Hm; lia).
  apply (@reset_same (env0 sr o) eq_refl (knot (budget sr)) _ _); [exact Hw|exact Hd|rewrite r_n_knot; unfold budget; lia|rewrite r_n_knot; unfold budget; lia|apply Forall_nil|exact P|].
  right. destruct (rung _ (mkG st [])) as [l' S'|S'|w|]; try discriminate. cbn in H. injection H as -> E'.
  assert (nerr S' = 0) by (unfold nerr, nerrs; unfold errors in Ee; rewrite E'; now rewrite Ee). lia.
Qed.
(** Otherwise the mode may change: after an erroneous CREATE TRIGGER, BEGIN starts a compound
    statement, and a script that is accepted without the erroneous statement is not. *)
Theorem C22_refuted : exists bad rest o,
  match parse_statements rest [] o with Returns l out => length l = 2 /\ errors out = [] | _ => False end /\
  match parse_statements (bad ++ rest) [] o with Returns l out => l = [] /\ length (errors out) = 2 | _ => False end /\
  match parse_statements_reset (bad ++ rest) [] o with Returns l out => length l = 2 /\ length (errors out) = 1 | _ => False end.
Proof.
  exists (txt "CREATE TRIGGER t AFTER UPDATE ON u FOR EACH ROW SELECT; "), (txt "BEGIN; COMMIT;"), default_options. vm_compute. repeat split.
Qed.
Example C22_applies :
  match parse_statements (txt "SELECT ; BEGIN; SELECT 1; END;") [] default_options with Returns l out => length l = 3 /\ length (errors out) = 1 | _ => False end /\
  ~ has_word (txt "SELECT ; BEGIN; SELECT 1; END;") "TRIGGER" /\
  match parse_statements (txt "CREATE TRIGGER t AFTER UPDATE ON u FOR EACH ROW BEGIN SELECT 1; END; BEGIN; COMMIT;") [] default_options with Returns l out => length l = 3 /\ out = [] | _ => False end.
Proof.
  split; [vm_compute; auto|]. split; [|vm_compute; auto]. intros H. apply has_wordb_spec in H. vm_compute in H. discriminate.
Qed.

(** ** C50 *)
(** [insert_inside i a]: the INSERT or REPLACE statement [i] occurs in [a]. *)
Definition insert_inside {A} {I : Atoms A} (i : insert_replace expr stmt) (a : A) : Prop := incl (atoms i) (atoms a).
(** HIGH_PRIORITY and IGNORE are for INSERT only, a column list does not go together with SET,
    and there have to be rows. *)
Definition insert_rules (i : insert_replace expr stmt) (l : list issue) : Prop :=
  (tag (ir_type i) = "Replace" -> forall g, In g (ir_flags i) -> tag g = "HighPriority" \/ tag g = "Ignore" ->
     error_at (txt "Not supported for replace") (tag_span g) l) /\
  (ir_set i <> None -> forall c rest, ir_columns i = c :: rest ->
     error_at (txt "Columns may not be used here") (fold_left (fun s c => join s (id_span c)) rest (id_span c)) l) /\
  (ir_values i = None -> ir_select i = None -> ir_set i = None -> errors l <> []).
Lemma insert_uses (i : insert_replace expr stmt) f s : In (AFeature f s) (replace_flags (ir_type i) (ir_flags i) ++ source_uses (ir_columns i) (ir_values i) (ir_select i) (ir_set i)) ->
  In (AFeature f s) (atoms i).
Proof.
  destruct i as [a b c d e f' g h i j k]. cbn [ir_type ir_flags ir_columns ir_values ir_select ir_set atoms Atoms_insert_replace]. intros H.
  apply in_app_or in H as [H|H]; apply in_or_app; [left; apply in_or_app|]; now right.
Qed.
Lemma spn_columns c rest : spn (c :: rest : list ident) = SSome (fold_left (fun s c => join s (id_span c)) rest (id_span c)).
Proof.
  assert (X : forall l s, fold_left (fun a (b : ident) => jn a (spn b)) l (SSome s) = SSome (fold_left (fun s c => join s (id_span c)) l s)).
  { induction l as [|d l IH]; intros s; [reflexivity|]. cbn [fold_left]. rewrite <- IH. reflexivity. }
  exact (X rest (id_span c)).
Qed.
Lemma insert_reported (l : list issue) (i : insert_replace expr stmt) :
  (forall f s, In (AFeature f s) (atoms i) -> feature_in f MariaDB = false -> feature_in f PostgreSQL = false -> feature_in f Sqlite = false ->
     match f with FWithStatement | FNoRows => errors l <> [] | _ => error_at (txt (feature_message f)) s l end) ->
  insert_rules i l.
Proof.
  intros H. repeat split.
  - intros R g G1 G2. apply (H FReplaceFlag (tag_span g)); try reflexivity. apply insert_uses, in_or_app. left.
    unfold replace_flags. rewrite R. cbn [String.eqb Ascii.eqb Bool.eqb]. apply in_flat_map. exists g. split; [exact G1|].
    destruct G2 as [-> | ->]; now left.
  - intros R c rest G. apply (H FSetColumns); try reflexivity. apply insert_uses, in_or_app. right.
    unfold source_uses. destruct (ir_set i); [|congruence]. rewrite G, spn_columns. now left.
  - intros R1 R2 R3. apply (H FNoRows (0, 0)); try reflexivity. apply insert_uses, in_or_app. right.
    unfold source_uses. rewrite R1, R2, R3. now left.
Qed.
(** Every INSERT or REPLACE, wherever it occurs in the result, keeps to the rules or is reported. *)
Theorem C50_statement_insert : forall src issues o r out i,
  parse_statement_api src issues o = Returns r out -> insert_inside i r -> insert_rules i (new_issues issues out).
Proof.
  intros src issues o r out i H Hi. apply insert_reported. intros f s Hx A B C.
  apply (both_features _ _ _ _ _ (statement_facts3 _ _ _ _ _ H) f s); [apply in_flat_map; exists (AFeature f s); split; [now apply Hi|now left]|now destruct (o_dialect o)].
Qed.
Theorem C50_statements_insert : forall src issues o l out i,
  parse_statements src issues o = Returns l out -> insert_inside i l -> insert_rules i (new_issues issues out).
Proof.
  intros src issues o r out i H Hi. apply insert_reported. intros f s Hx A B C.
  apply (both_features _ _ _ _ _ (statements_facts3 _ _ _ _ _ H) f s); [apply in_flat_map; exists (AFeature f s); split; [now apply Hi|now left]|now destruct (o_dialect o)].
Qed.
(** In particular, at the top. *)
Corollary C50_top : forall src issues o i out,
  parse_statement_api src issues o = Returns (Some (SInsertReplace i)) out -> insert_rules i (new_issues issues out).
Proof. intros src issues o i out H. apply (C50_statement_insert _ _ _ _ _ i H). intros a Ha. exact Ha. Qed.
Corollary C50_top_in_script : forall src issues o l i out,
  parse_statements src issues o = Returns l out -> In (SInsertReplace i) l -> insert_rules i (new_issues issues out).
Proof.
  intros src issues o l i out H Hl. apply (C50_statements_insert _ _ _ _ _ i H). intros a Ha. change (In a (flat_map atoms l)). apply in_flat_map. exists (SInsertReplace i). auto.
Qed.
(** So without an Error they keep to the rules. *)
Corollary C50_kept : forall src issues o i out,
  parse_statement_api src issues o = Returns (Some (SInsertReplace i)) out -> errors (new_issues issues out) = [] ->
  (tag (ir_type i) = "Replace" -> Forall (fun g => tag g <> "HighPriority" /\ tag g <> "Ignore") (ir_flags i)) /\
  (ir_set i <> None -> ir_columns i = []) /\
  (ir_values i <> None \/ ir_select i <> None \/ ir_set i <> None).
Proof.
  intros src issues o i out H E. destruct (C50_top _ _ _ _ _ H) as (A & B & C).
  assert (Y : forall m s, ~ error_at m s (new_issues issues out)).
  { intros m0 s0 (x & I1 & I2 & _). assert (Z : In x (errors (new_issues issues out))) by (apply filter_In; split; [exact I1|unfold is_error; now rewrite I2]).
    rewrite E in Z. destruct Z. }
  repeat split.
  - intros R. apply Forall_forall. intros g G. split; intros X; eapply Y, (A R g G); auto.
  - intros R. destruct (ir_columns i) as [|c rest] eqn:Ec; [reflexivity|]. exfalso. eapply Y, (B R c rest eq_refl).
  - destruct (ir_values i), (ir_select i), (ir_set i); try (left; discriminate); try (right; left; discriminate); try (right; right; discriminate).
    exfalso. now apply C.
Qed.
Example C50_applies :
  match parse_statement_api (txt "REPLACE IGNORE INTO t (a, b) SET a = 1") [] default_options with
  | Returns (Some (SInsertReplace i)) out => tag (ir_type i) = "Replace" /\ map tag (ir_flags i) = ["Ignore"] /\ length (ir_columns i) = 2 /\ ir_set i <> None /\
      map (fun x => (i_message x, i_span x)) out = [(txt "Not supported for replace", (8, 14)); (txt "Columns may not be used here", (23, 27))]
  | _ => False end /\
  match parse_statement_api (txt "INSERT INTO t (a)") [] default_options with
  | Returns (Some (SInsertReplace i)) out => ir_values i = None /\ ir_select i = None /\ ir_set i = None /\ length out = 1 | _ => False end /\
  match parse_statement_api (txt "INSERT HIGH_PRIORITY IGNORE INTO t (a) VALUES (1)") [] default_options with
  | Returns (Some (SInsertReplace i)) [] => length (ir_flags i) = 2 | _ => False end.
Proof. vm_compute. repeat split; discriminate. Qed.
