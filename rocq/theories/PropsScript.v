(** C06/C07 (independence of the budget), C31 and C44. *)
From Verif Require Export PropsSafe Fuel GrammarStmt PropsQuery.
Local Open Scope string_scope.
Local Open Scope list_scope.

(** ** The budget of the model *)
Lemma statement_enough src issues o n : length src <= n -> parse_statement_n n src src issues o <> NoFuel.
Proof.
  revert src. intros sr Hn H. unfold parse_statement_n in H.
  rewrite (api_prepend _ (parse_statement_body (knot n))) in H. pose proof (@init_wf (env0 sr o) I) as X. cbn [src opts env0 env_of] in X.
  destruct (parser_new sr sr [] o) as [st _x|w|]; [|discriminate|easy]. destruct X as (Hw & Hm & _ & _).
  pose proof (rung_run _ (parse_statement_body (knot n)) (mkG st [])) as R. cbn [g_st] in R. rewrite R in H. clear R.
  pose proof (@statement_body_wp (env0 sr o) (knot n) _ _ (mkG st []) Hw) as W. rewrite r_n_knot in W. change (SafeLogic.src) with sr in Hm.
  specialize (W ltac:(lia)). unfold wp in W. destruct (rung (parse_statement_body (knot n)) (mkG st [])); try discriminate. now destruct W.
Qed.
(** With every budget that is at least the number of characters, [parse_statement] does the same:
    the budget of the model does not influence the result. *)
Theorem C06_budget_independent : forall src issues o n, length src <= n ->
  parse_statement_n n src src issues o = parse_statement_api src issues o.
Proof.
  intros src issues o n L. unfold parse_statement_api, budget.
  destruct (Nat.le_ge_cases n (S (S (length src)))).
  - symmetry. apply budget_statement; [assumption|now apply statement_enough].
  - apply budget_statement; [assumption|apply statement_enough; lia].
Qed.
Theorem C07_budget_independent : forall src issues o n, length src + 2 <= n -> ~ delimiter_at_end src ->
  parse_statements_n n src src issues o = parse_statements src issues o.
Proof.
  intros src issues o n L D. unfold parse_statements, budget. apply budget_statements; [lia|]. apply C07_statements_terminate_partial; [lia|exact D].
Qed.

(** ** C31 *)
(** A script of statements of the grammar, read with the delimiter in force: each statement
    that is followed by it is returned; the other delimiter does not separate statements, it is
    reported (as an Error at its place) and everything up to the delimiter in force is skipped. *)
Theorem C31_script : forall o src issues ts l errs,
  written o src ts -> script_is o (blen src, blen src) TSemiColon ts l errs ->
  exists out, parse_statements src issues o = Returns l (issues ++ out) /\ map seen out = map missing errs.
Proof. intros. eapply script_source; eauto. Qed.
Corollary C31_correct_script : forall o src issues ts l,
  written o src ts -> script_is o (blen src, blen src) TSemiColon ts l [] ->
  parse_statements src issues o = Returns l issues.
Proof.
  intros o src issues ts l T H. destruct (C31_script o src issues ts l [] T H) as (out & E & S). destruct out; [|discriminate S].
  now rewrite app_nil_r in E.
Qed.
(** A script with both delimiters: after [DELIMITER $$] the [;] no longer separates; the last
    delimiter is missing. *)
Example C31_applies : exists ts q b c,
  let o := unnumbered default_options in let src := txt "DELIMITER $$ SELECT a + 1; SELECT 2 $$ BEGIN $$ DELIMITER ; COMMIT" in
  written o src ts /\
  script_is o (blen src, blen src) TSemiColon ts [SSelect q; SBegin b; SCommit c] [(TDoubleDollar, (25, 26)); (TSemiColon, (blen src, blen src))].
Proof.
  eexists ([(TIdent (txt "DELIMITER") (KW "DELIMITER"), (0, 9)); (TDoubleDollar, (10, 12))] ++
     [(TIdent (txt "SELECT") (KW "SELECT"), (13, 19)); (TIdent (txt "a") NOT_A_KEYWORD, (20, 21)); (TPlus, (22, 23)); (TInteger (txt "1"), (24, 25))] ++
     (TSemiColon, (25, 26)) :: [(TIdent (txt "SELECT") (KW "SELECT"), (27, 33)); (TInteger (txt "2"), (34, 35))] ++ (TDoubleDollar, (36, 38)) ::
     [(TIdent (txt "BEGIN") (KW "BEGIN"), (39, 44))] ++ (TDoubleDollar, (45, 47)) ::
     [(TIdent (txt "DELIMITER") (KW "DELIMITER"), (48, 57)); (TSemiColon, (58, 59))] ++
     [(TIdent (txt "COMMIT") (KW "COMMIT"), (60, 66))]), _, _, _. cbn zeta. split; [apply written_plain; [vm_compute; reflexivity|now left]|].
  apply sc_set; [tok_kw|now right|]. eapply sc_other; [|now left|discriminate|repeat (constructor; [split; [discriminate|split; [discriminate|reflexivity]]|]); constructor|].
  { apply si_query. eapply qu_one, bt_select. eapply (sl_no_from _ (TIdent (txt "SELECT") (KW "SELECT")) (13, 19) [] []); [tok_kw|constructor|].
    eapply sn_one, se_plain, (sum_is _ (TIdent (txt "a") NOT_A_KEYWORD) (txt "a") (20, 21) (22, 23) (txt "1") (24, 25)); [plain_word|vm_compute; discriminate]. }
  eapply (sc_stmt _ _ _ _ _ [_]); [apply si_begin; tok_kw|]. eapply sc_set; [tok_kw|now left|]. eapply sc_last. apply si_commit. tok_kw.
Qed.

(** ** C44 *)
(** With the delimiter after it, a statement of the grammar is the only one returned. *)
Theorem C44_with_delimiter_partial : forall o src issues src' ts k x s,
  stmt_is o false k ts x ->
  written o src ts ->
  written o src' (ts ++ [(TSemiColon, s)]) ->
  parse_statement_api src issues o = Returns (Some x) issues /\ parse_statements src' issues o = Returns [x] issues.
Proof.
  intros o src issues src' ts k x s X T T'. split; [eapply statement_source; eauto|].
  eapply (C31_correct_script o src' issues (ts ++ [(TSemiColon, s)])); [exact T'|].
  eapply sc_stmt; [exact X|apply sc_end].
Qed.
Lemma p_next_issues st st' : p_next st = XOk tt st' -> s_issues st' = s_issues st.
Proof.
  unfold p_next. destruct (s_peek st) as [[t s]|]; [intros H; now injection H as <-|].
  destruct (next_token (s_lex st)) as [[t s] l|]; [intros H; now injection H as <-|discriminate].
Qed.
Lemma recover_issues n : forall st b st', run (recover_statement n) st = ROk b st' -> s_issues st' = s_issues st.
Proof.
  unfold recover_statement. induction n as [|n IH]; intros st b st'; [discriminate|]. cbn [loop]. rewrite !run_bind. unfold next. rewrite run_perf. cbn [exec].
  destruct (p_next st) as [[] st1|w|] eqn:E; try discriminate. apply p_next_issues in E. rewrite run_bind, run_token, run_bind, run_perf. cbn [exec].
  destruct (tok_eqb (s_tok st1) (s_delim st1)); cbn [run]; [intros H; now injection H as _ <-|].
  destruct (tok_eqb (s_tok st1) TEof); cbn [run]; [intros H; now injection H as _ <-|]. intros H. apply IH in H. congruence.
Qed.
(** At the end of the input, [recover_statement] neither fails nor panics. *)
Lemma recover_end1 n st : s_peek st = None -> l_rest (s_lex st) = [] ->
  exists b st', run (recover_statement (S n)) st = ROk b st'.
Proof.
  intros P R. destruct (next_eof st P R) as (st' & E & T & _). unfold recover_statement. cbn [loop]. rewrite !run_bind. unfold next. rewrite run_perf. cbn [exec]. rewrite E.
  rewrite run_bind, run_token, run_bind, run_perf. cbn [exec]. rewrite T. destruct (tok_eqb TEof (s_delim st')); cbn [run tok_eqb tok_tag Nat.eqb]; eauto.
Qed.
Lemma recover_end {V : env} n S : wf S -> is_eof (tk S) = true ->
  exists b st', run (recover_statement (Datatypes.S (Datatypes.S n))) (g_st S) = ROk b st'.
Proof.
  intros Hw He. destruct (s_peek (g_st S)) as [[t s]|] eqn:P.
  - destruct (w_tok _ _ Hw) as (T & w & [At _] & _). specialize (T He). apply at_vspan in At. destruct At as (L & _).
    pose proof (w_nxt _ _ Hw) as N. rewrite P in N. pose proof (w_peek _ _ Hw) as K. rewrite P in K. destruct K as [(_ & w2 & At2 & _) K].
    apply at_vspan in At2. destruct At2 as (L2 & _). destruct N as (pre0 & g & rest0 & _ & L3 & L4 & _).
    pose proof (w_src _ _ Hw) as Es. destruct (w_lwf _ _ Hw) as (pre & E1 & E2).
    assert (R : l_rest (s_lex (g_st S)) = []).
    { rewrite Es in E1. apply (f_equal blen) in E1. rewrite blen_app in E1. destruct (l_rest (s_lex (g_st S))) as [|c rest]; [reflexivity|].
      pose proof (utf8_len_pos c). cbn in E1. lia. }
    set (n1 := Datatypes.S n). unfold recover_statement. cbn [loop]. rewrite !run_bind. unfold next. rewrite run_perf. cbn [exec]. unfold p_next. rewrite P. cbn [exec].
    rewrite run_bind, run_token, run_bind, run_perf. cbn [exec]. destruct (tok_eqb _ _); cbn [run]; [eauto|]. destruct (tok_eqb _ TEof); cbn [run]; [eauto|].
    apply recover_end1; [reflexivity|exact R].
  - apply recover_end1; [exact P|]. now apply eof_rest.
Qed.
(** What [parse_statement] returned begins with a word or a parenthesis. *)
Lemma statement_start r st x st' : run (parse_statement r) st = ROk (Some x) st' ->
  tok_eqb (s_tok st) TSemiColon = false /\ tok_eqb (s_tok st) TEof = false /\ is_kw (s_tok st) "DELIMITER" = false.
Proof.
  intros H. unfold parse_statement in H. rewrite run_bind, run_token in H.
  destruct (s_tok st) eqn:T; cbn [is_kw kw_eqb tok_eqb tok_tag Nat.eqb orb] in *; try discriminate H; try (now auto).
  destruct k as [| |k]; try discriminate H; try now auto. split; [reflexivity|]. split; [reflexivity|].
  destruct (String.eqb_spec k "DELIMITER") as [->|]; [|now apply String.eqb_neq]. discriminate H.
Qed.
(** As it stands the claim never holds: for every source that [parse_statement] accepts without
    an Error, [parse_statements] returns the same statement and the same issues but also reports
    the delimiter missing at the end, as an Error. *)
Theorem C44_refuted : forall src issues o x out,
  parse_statement_api src issues o = Returns (Some x) out -> errors (new_issues issues out) = [] ->
  exists e, parse_statements src issues o = Returns [x] (out ++ [e]) /\
    i_level e = Error /\ i_message e = txt "Expected '';'' here" /\ i_span e = (blen src, blen src).
Proof.
  intros sr issues o x out H E.
  pose proof (statement_from_empty _ _ _ _ _ H) as H0.
  assert (G : exists e, parse_statements sr [] o = Returns [x] (new_issues issues out ++ [e]) /\
    i_level e = Error /\ i_message e = txt "Expected '';'' here" /\ i_span e = (blen sr, blen sr)).
  2: { destruct G as (e & G & Hl & Hm & Hs). exists e. split; [|auto]. rewrite C43_statements_independent, G. cbn [prepend]. rewrite app_assoc. f_equal. f_equal.
    rewrite C43_statement_independent, H0 in H. cbn [prepend] in H. now injection H as H. }
  set (nw := new_issues issues out) in *. clearbody nw. clear H.
  rewrite <- (C06_budget_independent sr [] o (S (length sr))) in H0 by lia.
  unfold parse_statements, parse_statements_n, parse_statement_n in *. pose proof (@init_wf (env0 sr o) I) as X. cbn [src opts env0 env_of] in X.
  assert (Dl : forall st y, parser_new sr sr [] o = XOk st y -> s_delim st = TSemiColon /\ s_issues st = []).
  { clear. intros st y. unfold parser_new. destruct (next_token (lex_new sr)) as [[t s] l|]; [|discriminate]. intros H. injection H as <- _. auto. }
  destruct (parser_new sr sr [] o) as [st _x|w|] eqn:En; [|discriminate|easy]. destruct (Dl _ _ eq_refl) as [D0 I0]. clear Dl En. destruct X as (Hw & Hm & _ & Hd).
  set (V := env0 sr o) in *. change (SafeLogic.src) with sr in Hm.
  set (n := S (length sr)) in *. unfold budget. fold n.
  unfold parse_statement_body in H0. rewrite run_try in H0.
  destruct (run (parse_statement (knot n)) st) as [[v|] st1|st1|w|] eqn:R1; try discriminate H0.
  2: { rewrite run_bind in H0. destruct (run (expected_error "Statement") st1); discriminate H0. }
  (* the state after the statement *)
  pose proof (parse_statement_spec (knot n) (mkG st []) Hw) as W. rewrite r_n_knot in W. specialize (W ltac:(lia)).
  pose proof (rung_run _ (parse_statement (knot n)) (mkG st [])) as RR. cbn [g_st] in RR. rewrite R1 in RR. unfold wp in W.
  destruct (rung (parse_statement (knot n)) (mkG st [])) as [v' S1|S1|w|]; try discriminate RR. cbn [forget] in RR. injection RR as <- ->.
  destruct (W I) as (C1 & _). pose proof (c_wf _ _ C1) as W1. pose proof (c_delim _ _ C1) as D1. cbn [g_st] in D1. rewrite D0 in D1.
  pose proof (c_m _ _ C1) as M1.
  rewrite run_bind, run_token in H0.
  assert (T1 : tok_eqb (s_tok (g_st S1)) TEof = true).
  { destruct (tok_eqb (s_tok (g_st S1)) TEof); [reflexivity|]. cbn [negb] in H0. rewrite run_bind in H0. unfold expected_error in H0. rewrite run_bind, run_span in H0.
    unfold err_frags in H0. rewrite run_perf in H0. cbn [exec] in H0. unfold p_issue in H0. destruct (slice _ _ _); [|discriminate H0]. cbn [build_frags run outcome_of] in H0.
    injection H0 as _ H0. cbn in H0. rewrite <- H0 in E. unfold errors in E. rewrite filter_app in E. cbn in E. now destruct (filter is_error (s_issues (g_st S1))). }
  rewrite T1 in H0. cbn [negb] in H0. rewrite run_bind in H0. cbn [run outcome_of] in H0. injection H0 as -> I1.
  destruct (statement_start _ _ _ _ R1) as (N1 & N2 & N3).
  (* parse_statements *)
  unfold parse_statements_loop. rewrite r_n_knot. cbn [loop]. rewrite run_bind. unfold parse_statements_step at 1. rewrite r_n_knot.
  unfold skip_delimiters at 1. cbn [loop]. rewrite run_bind, run_bind, run_bind, run_token, run_bind, run_perf. cbn [exec]. rewrite D0, N1, N2. cbn [run].
  unfold skip_keyword. rewrite run_bind, run_bind, run_token, N3. cbn [run].
  rewrite run_bind, run_try, run_bind. change (r_stmt (knot (S n))) with (parse_statement (knot n)). rewrite R1. cbn [run is_some negb].
  rewrite run_bind, run_token, run_bind, run_perf. cbn [exec]. rewrite D1.
  assert (T2 : s_tok (g_st S1) = TEof) by (destruct (s_tok (g_st S1)); try discriminate; reflexivity).
  rewrite T2. cbn [tok_eqb tok_tag Nat.eqb negb tok_name]. rewrite run_bind, run_bind. unfold expected_error, err_frags. rewrite run_bind, run_span, run_perf. cbn [exec].
  destruct (w_tok _ _ W1) as (We & w1 & [At _] & _). unfold tk in We. rewrite T2 in We. specialize (We eq_refl). change (SafeLogic.src) with sr in *. pose proof (proj1 (slice_iff_at _ _ _) At) as Sl || pose proof (proj2 (slice_iff_at _ _ _) At) as Sl.
  unfold p_issue. rewrite (w_isrc _ _ W1). change (SafeLogic.src) with sr. unfold sp in Sl, We. rewrite Sl. cbn [build_frags].
  set (e := mkIssue Error _ _ _ _).
  set (st2 := set_issues (g_st S1) (s_issues (g_st S1) ++ [e])).
  assert (Hv : s_span (g_st S1) = (blen sr, blen sr)).
  { destruct At as (p & q & Es & A1 & A2). unfold sp in *. destruct (s_span (g_st S1)) as [a b]. cbn [fst snd] in We, A1, A2. rewrite Es, !blen_app in We. rewrite Es, !blen_app. f_equal; lia. }
  assert (W2 : wf (mkG st2 (g_log S1))).
  { destruct W1 as [w2 w3 w4 w5 w6 w7 w8 w9 w10 w11]. constructor; auto. unfold st2. cbn [g_st set_issues s_issues]. apply Forall_app. split; [exact w11|]. constructor; [|constructor]. left. change opts with o. destruct o as [[| |] ? ? ? ?]; reflexivity. }
  pose proof (recover_statement_wp (S (S n)) (mkG st2 (g_log S1)) W2) as Rw.
  assert (Lm : m (mkG st2 (g_log S1)) + b2n (is_eof (tk (mkG st2 (g_log S1)))) < S (S n)).
  { assert (Q : m (mkG st2 (g_log S1)) = m S1) by reflexivity. rewrite Q. destruct (is_eof _); cbn [b2n]; lia. }
  specialize (Rw Lm). unfold wp in Rw. pose proof (rung_run _ (recover_statement (S (S n))) (mkG st2 (g_log S1))) as RR. cbn [g_st] in RR.
  destruct (recover_end n (mkG st2 (g_log S1)) W2) as (b' & st3 & Re); [unfold tk, st2; cbn [g_st set_issues s_tok]; now rewrite T2|]. cbn [g_st] in Re. rewrite Re in RR.
  destruct (rung (recover_statement (S (S n))) (mkG st2 (g_log S1))) as [b S3|S3|w|]; cbn [forget] in RR; try discriminate RR. injection RR as -> ->. rename Re into RR.
  - destruct (Rw I) as (C3 & P3 & B3). destruct b.
    + rewrite RR. apply recover_issues in RR. cbn [run]. exists e. cbn [outcome_of app]. rewrite RR. unfold st2. cbn [s_issues set_issues]. rewrite I1. split; [reflexivity|]. split; [reflexivity|]. split; [reflexivity|exact Hv].
    + exfalso. pose proof (c_pos _ _ C3) as P4. pose proof (w_tok _ _ (c_wf _ _ C3)) as (_ & w & [(p & q & Es & A1 & A2) _] & Tt). rewrite (c_delim _ _ C3) in B3. cbn [g_st] in B3. unfold st2 in B3. cbn in B3. rewrite D1 in B3.
      destruct (tk S3); try discriminate B3. cbn in Tt. subst w. change (SafeLogic.src) with sr in *. unfold sp at 1 in P4. unfold st2 in P4. cbn in P4. rewrite Hv in P4. cbn in P4. rewrite A1 in P4. apply (f_equal blen) in Es. rewrite !blen_app in Es. cbn in Es. lia.
Qed.
Example C44_with_delimiter_applies : exists ts x,
  let o := unnumbered default_options in let src := txt "START TRANSACTION" in let src' := txt "START TRANSACTION;" in
  stmt_is o false false ts x /\ written o src ts /\ written o src' (ts ++ [(TSemiColon, (17, 18))]).
Proof.
  eexists [(TIdent (txt "START") (KW "START"), (0, 5)); (TIdent (txt "TRANSACTION") (KW "TRANSACTION"), (6, 17))], _. cbn zeta.
  split; [eapply si_start; tok_kw|]. split; apply written_plain; try (vm_compute; reflexivity); now left.
Qed.
Example C44_refuted_applies : exists x,
  parse_statement_api (txt "UPDATE t SET a = 1") [] default_options = Returns (Some x) [].
Proof. eexists. vm_compute. reflexivity. Qed.
