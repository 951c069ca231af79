(** C51: the statements follow the grammar. *)
From Verif Require Export AcceptCreate.
Local Open Scope string_scope.
Local Open Scope list_scope.

(** What a program may return. *)
Definition gives {A} (p : prog A) (P : A -> Prop) : Prop := forall st a st', run p st = ROk a st' -> P a.
Lemma g_ret A (a : A) (P : A -> Prop) : P a -> gives (Ret a) P.
Proof. intros H st b st' E. cbn in E. injection E as <- _. exact H. Qed.
Lemma g_bind A B (p : prog A) (k : A -> prog B) (P : B -> Prop) : (forall a, gives (k a) P) -> gives (bind p k) P.
Proof. intros H st b st' E. rewrite run_bind in E. destruct (run p st); try discriminate. eapply H; eauto. Qed.
Lemma g_fail A (P : A -> Prop) : gives Fail P.
Proof. intros st b st' E. discriminate. Qed.
Lemma g_expected A m (P : A -> Prop) : gives (expected_failure m) P.
Proof. apply g_bind. intros _. apply g_fail. Qed.
Lemma g_err_here A m (P : A -> Prop) : gives (err_here m) P.
Proof. apply g_bind. intros s. apply g_bind. intros _. apply g_fail. Qed.
Lemma with_gives o A (p : prog A) t (R : A -> list tok -> Prop) (P : A -> Prop) : gives p P -> reads_at o t p R -> reads_at o t p (fun a ts => R a ts /\ P a).
Proof.
  intros G H st Go T. specialize (H st Go T). specialize (G st). destruct (run p st) as [a st'| | |]; auto. intros E. destruct (H E) as (xs & X & Y). exists xs. split; [exact X|]. split; [exact Y|]. eapply G; reflexivity.
Qed.
Ltac gives_tac := repeat (cbv beta iota zeta; lazymatch goal with
  | |- gives (bind _ _) _ => apply g_bind; intros ?
  | |- gives (Ret _) _ => apply g_ret
  | |- gives (expected_failure _) _ => apply g_expected
  | |- gives (err_here _) _ => apply g_err_here
  | |- gives (todo _) _ => apply g_err_here
  | |- gives (if ?b then _ else _) _ => destruct b
  | |- gives (match ?x with _ => _ end) _ => destruct x
  end).
Definition plain_kind (n : nt) (s : stmt) : Prop := kind s = n /\ reads_from_stdin s = false.
Lemma g_drop n : gives (parse_drop n) (plain_kind NDrop).
Proof. unfold parse_drop, parse_drop_q, parse_drop_i, parse_drop_index. gives_tac; now split. Qed.
Lemma g_alter r : gives (parse_alter r) (plain_kind NAlter).
Proof. unfold parse_alter, parse_alter_table. gives_tac; now split. Qed.
Lemma g_create r : gives (parse_create r) (plain_kind NCreate).
Proof.
  unfold parse_create. gives_tac; unfold parse_create_index, parse_create_table, parse_create_view, parse_create_function, parse_create_trigger, parse_create_type; gives_tac; now split.
Qed.
Lemma g_do r : gives (parse_do r) (plain_kind NDo).
Proof. unfold parse_do. gives_tac. now split. Qed.
Definition is_query (s : stmt) : Prop := match s with SSelect _ | SUnion _ | SInvalid _ => True | _ => False end.
Lemma g_use A B (p : prog A) (k : A -> prog B) (Q : A -> Prop) (P : B -> Prop) : gives p Q -> (forall a, Q a -> gives (k a) P) -> gives (bind p k) P.
Proof. intros H0 H st b st' E. rewrite run_bind in E. destruct (run p st) as [a st1| | |] eqn:E1; try discriminate. eapply H; [eapply H0|]; eauto. Qed.
Lemma g_recovered A (d : A) x e p (P : A -> Prop) : P d -> gives p P -> gives (recovered d x e p) P.
Proof.
  intros Hd H. unfold recovered. intros st b st'. rewrite run_bind. rewrite run_try. specialize (H st). destruct (run p st) as [v st1|st1|w|]; try discriminate.
  - specialize (H _ _ eq_refl). revert st1 H. intros st1 H. intros E. destruct (run _ st1) as [y st2| | |] eqn:E1; [|discriminate..].
    cbn in E1. injection E1 as <- <-. revert E. generalize st1. intros st3. change (run (recovered_end x e ;;; Ret v) st3 = ROk b st' -> P b).
    assert (G : gives (recovered_end x e ;;; Ret v) P) by (apply g_bind; intros ?; now apply g_ret). apply G.
  - intros E. destruct (run _ st1) as [y st2| | |] eqn:E1; [|discriminate..].
    assert (G1 : gives (recover e ;;; Ret d) P) by (apply g_bind; intros ?; now apply g_ret). specialize (G1 _ _ _ E1).
    assert (G : gives (recovered_end x e ;;; Ret y) P) by (apply g_bind; intros ?; now apply g_ret). exact (G _ _ _ E).
Qed.
Lemma g_bottom r : gives (r_compound r) is_query -> gives (parse_compound_query_bottom r) is_query.
Proof.
  intros H. unfold parse_compound_query_bottom. apply g_bind. intros t. destruct (tok_eqb t TLParen).
  - apply g_bind. intros lp. apply (g_use _ _ _ _ (fun x => match x with Some s => is_query s | None => True end)).
    { apply g_recovered; [exact I|]. eapply g_use; [exact H|]. intros a Q. now apply g_ret. }
    intros [s|] Q; apply g_bind; intros _; apply g_ret; [exact Q|exact I].
  - gives_tac. exact I.
Qed.
Lemma g_compound r : gives (r_compound r) is_query -> gives (parse_compound_query r) is_query.
Proof. intros H. unfold parse_compound_query. eapply g_use; [apply g_bottom, H|]. intros q Q. gives_tac; [exact Q|exact I]. Qed.

Ltac walk1d := cbv beta iota zeta; first [ctl1 | apply ra_stdin | eapply doom_bind; [solve [eauto 5 with reads nocore]|intros ?; intro]].

Section Grammar.
Variable o : options.
Notation reads_at := (reads_at o). Notation reads := (reads o). Notation follow := (follow o). Notation calls := (calls o).
Variable r : recs.
Hypothesis HE : forall b, calls (r_expr r b) (N_ (NExpr b)).
Hypothesis HC : reads (r_compound r) (fun s ts => derives o (N_ (match s with SSelect _ => NSingle | _ => NQuery end)) ts).
Hypothesis HQ : gives (r_compound r) is_query.
Hypothesis HS : reads (r_stmt r) (stmt_post o).
Hint Resolve HE HC : reads.
(** Lists of statements *)
Definition semis := Star (T TSemiColon).
Definition list_item := Seq [semis; statement; T TSemiColon].
Lemma c_skip_semis n : calls (skip_tokens n TSemiColon) semis.
Proof.
  unfold skip_tokens. apply c_loop. intros u t. apply ra_skip_tok; [intros -> s t1|intros _]; apply ra_ret; cbn [turn]; [constructor|reflexivity].
Qed.
Lemma c_list_inner : reads (parse_statement_list_inner r) (fine (fun _ => derives o (N_ NStatements))).
Proof.
  intros t. unfold parse_statement_list_inner. apply (ra_loop_acc o _ _ (fun _ => derives o (Star list_item))); [constructor|].
  intros l ts1 D t1. eapply ra_bind; [apply c_skip_semis|]. intros u ts2 D2 t2. eapply ra_bind; [apply HS|]. intros [v|] ts3 D3 t3; cbn [stmt_post] in D3.
  - destruct D3 as [F D3]. apply kind_stmt in D3. apply ra_token. destruct (negb (tok_eqb t3 TSemiColon)).
    + apply ra_ret. cbn [fst snd]. rewrite app_nil_r. apply d_rule. cbn [rule]. constructor; [exact D|]. constructor; [exact D2|]. rewrite <- (app_nil_r ts3). constructor; [now constructor|constructor].
    + rewrite F. eapply ra_bind; [apply ra_token'|]. intros a ts4 [-> ->] t4. apply ra_ret. cbn [fst snd]. apply d_snoc; [exact D|].
      constructor; [exact D2|]. constructor; [exact D3|]. constructor; [constructor|constructor].
  - subst ts3. apply ra_ret. cbn [fst snd app]. rewrite app_nil_r. apply d_rule. cbn [rule]. constructor; [exact D|]. rewrite <- (app_nil_r ts2). constructor; [exact D2|].
    change (@nil tok) with (@nil tok ++ []). constructor; constructor.
Qed.
Lemma c_list : reads (parse_statement_list r) (fine (fun _ => derives o (N_ NStatements))).
Proof.
  intros t. unfold parse_statement_list. intros st G T. rewrite run_bind, run_perf. cbn [exec]. rewrite run_bind, run_perf. cbn [exec].
  set (st1 := mkPst _ _ _ _ _ _ _ _ _ _). assert (A : forall us, ahead st1 us <-> ahead st us) by (intros us; reflexivity).
  assert (G1 : good o st1) by (destruct G as [G1 G2]; split; [exact G1|]; intros us H; apply G2, A, H).
  pose proof (c_list_inner (Parser.s_tok st1) st1 G1 eq_refl) as H. rewrite run_bind. destruct (run (parse_statement_list_inner r) st1) as [x st2|st2|w|]; auto.
  rewrite run_bind, run_perf. cbn [exec run]. intros E. destruct H as (xs & [H1 [H2 _]] & H3); [exact E|]. exists xs. split; [|exact H3]. split; [|split; [exact H2|reflexivity]].
  intros us N. rewrite <- (A (xs ++ us)). apply (H1 us N).
Qed.
Lemma c_list_local : calls (parse_statement_list_local r) (N_ NStatements).
Proof. intros t. unfold parse_statement_list_local. eapply ra_bind; [apply c_list|]. intros [l ok] ts [E H] t1. cbn [fst snd] in *. subst ok. apply ra_ret. now rewrite app_nil_r. Qed.
Hint Resolve c_list_local : reads.
Lemma c_exception_handlers : calls (parse_exception_handlers r) (Star (Seq [W "WHEN"; name; W "THEN"; N_ (NExpr true); T TSemiColon])).
Proof. apply f_calls. intros t. unfold parse_exception_handlers. walk. Qed.
Lemma c_list_recovered x e : calls (recovered_acc x e (parse_statement_list r)) (N_ NStatements).
Proof. intros t. apply ra_recovered_acc, c_list. Qed.
Hint Resolve c_exception_handlers c_list_recovered : reads.
Lemma c_block : calls (parse_block r) (N_ NBlock).
Proof. rule_of. unfold parse_block. walk. Qed.
Lemma c_if_condition s : calls (parse_if_condition r s) (Seq [expr_; W "THEN"; N_ NStatements]).
Proof. rule_of. unfold parse_if_condition. walk. Qed.
Lemma c_else : reads (parse_else r) (fine (fun _ => derives o (Opt (Seq [W "ELSE"; N_ NStatements])))).
Proof.
  intros t. unfold parse_else. apply (ra_try' o _ _ _ _ _ (fun _ => derives o (Opt (Seq [W "ELSE"; N_ NStatements])))).
  - apply f_done. walk.
  - intros e ts H t1. apply ra_ret. split; [reflexivity|]. cbn [fst]. now rewrite app_nil_r.
Qed.
Definition elseif := Seq [W "ELSEIF"; expr_; W "THEN"; N_ NStatements].
Definition if_tail := [Star elseif; Opt (Seq [W "ELSE"; N_ NStatements])].
Lemma c_if : calls (parse_if r) (N_ NIf).
Proof.
  rule_of. unfold parse_if. apply f_seq. cbn [app]. walk1. walk1.
  change [expr_; W "THEN"; N_ NStatements; Star (Seq [W "ELSEIF"; expr_; W "THEN"; N_ NStatements]); Opt (Seq [W "ELSE"; N_ NStatements]); W "END"; W "IF"]
    with (([expr_; W "THEN"; N_ NStatements] ++ if_tail) ++ [W "END"; W "IF"]).
  apply (f_take o _ _ _ _ _ 5); cbn [app firstn skipn].
  - apply (ra_recovered_acc o). apply (ra_bind o _ _ _ _ _ (fine (fun _ ts => derives o (Seq [Seq [expr_; W "THEN"; N_ NStatements]; Star elseif]) ts))).
    + apply (ra_loop_acc o _ _ (fun (z : list (if_condition expr stmt) * bool) ts => if snd z then ts = [] else derives o (Seq [Seq [expr_; W "THEN"; N_ NStatements]; Star elseif]) ts)); [reflexivity|].
      intros [l [|]] ts1 D t1; cbn [snd] in D.
      * subst ts1. eapply ra_bind; [apply c_if_condition|]. intros c ts H t2. apply ra_ret. cbn [fst snd app]. constructor; [exact H|]. apply (proj1 (d_one _ _ _)). constructor.
      * apply ra_skip_kw.
        -- intros E s t2. eapply ra_bind; [apply c_if_condition|]. intros c ts H t3. apply ra_ret. cbn [fst snd]. rewrite app_nil_r.
           apply d_cons_inv in D as (a & b & -> & X & Y). apply (proj2 (d_one _ _ _)) in Y. rewrite <- app_assoc. constructor; [exact X|]. apply (proj1 (d_one _ _ _)). apply d_snoc; [exact Y|].
           change (t1 :: ts) with ([t1] ++ ts). constructor; [now constructor|exact H].
        -- intros _. apply ra_ret. cbn [fst snd]. now rewrite app_nil_r.
    + intros [[conds fs] ok] ts1 [E D] t1. cbn [fst snd] in E. subst ok. cbv beta iota. eapply ra_bind; [apply c_else|]. intros [e ok] ts2 [E H] t2. cbn [fst snd] in *. subst ok. apply ra_ret. split; [reflexivity|].
      rewrite app_nil_r. eexists (ts1 ++ ts2), []. rewrite app_nil_r. split; [reflexivity|split; [|reflexivity]].
      apply d_cons_inv in D as (a & b & -> & X & Y). rewrite <- app_assoc. apply (d_app' o [expr_; W "THEN"; N_ NStatements]); [exact X|]. apply (proj2 (d_one _ _ _)) in Y. constructor; [exact Y|]. now apply (proj1 (d_one _ _ _)).
  - intros [conds e] t1. walk.
Qed.
Lemma c_return : calls (parse_return r) (N_ NReturn).
Proof. rule_of. unfold parse_return. walk. Qed.
Lemma c_set : calls (parse_set r) (N_ NSet).
Proof. rule_of. unfold parse_set. walk. Qed.
Lemma c_signal : calls (parse_signal r) (N_ NSignal).
Proof. rule_of. unfold parse_signal, parse_signal_set. walk. Qed.
Hint Resolve c_block c_if c_return c_set c_signal : reads.
Lemma c_do : calls (parse_do r) (N_ NDo).
Proof. rule_of. unfold parse_do. walk. Qed.
Definition when_ := Seq [W "WHEN"; expr_; W "THEN"; N_ NStatements].
Lemma c_when : calls (parse_when_statement r) when_.
Proof. unfold when_. rule_of. unfold parse_when_statement. walk. Qed.
Lemma c_case : calls (parse_case_statement r) (N_ NCase).
Proof.
  rule_of. unfold parse_case_statement. apply f_seq. cbn [app]. fold when_. walk1. walk1.
  assert (K : forall case value, reads ('(whens, else_) <-
    recovered_acc "'END'" (fun t => is_kw t "END")
      ('(whens, ok) <-
          loop_acc (r_n r) (fun l : list (when_statement expr stmt) =>
            w <- parse_when_statement r ;;
            t <- token ;;
            Ret (l ++ [w], if negb (is_kw t "WHEN") then Break else Continue)) [] ;;
       if ok : bool then '(e, ok) <- parse_else r ;; Ret ((whens, e), ok)
       else Ret ((whens, None), false)) ;;
  end_span <- consume_keyword "END" ;;
  Ret (mkCaseStatement case value whens else_ end_span)) (follow [when_; Star when_; Opt (Seq [W "ELSE"; N_ NStatements]); W "END"] any)).
  { intros case value t1. apply (f_take o _ _ _ _ _ 3); cbn [app firstn skipn].
    - apply (ra_recovered_acc o). apply (ra_bind o _ _ _ _ _ (fine (fun _ ts => derives o (Seq [when_; Star when_]) ts))).
      + apply (ra_loop_acc o _ _ (fun _ ts => ts = [] \/ derives o (Seq [when_; Star when_]) ts)); [now left|].
        intros l ts1 D t2. eapply ra_bind; [apply c_when|]. intros w ts2 H t3. apply ra_token. apply ra_ret. cbn [fst snd]. rewrite app_nil_r.
        assert (X : derives o (Seq [when_; Star when_]) (ts1 ++ ts2)).
        { destruct D as [->|D]; [cbn [app]; rewrite <- (app_nil_r ts2); constructor; [exact H|]; apply (proj1 (d_one _ _ _)); constructor|].
          apply d_cons_inv in D as (a & b & -> & X & Y). apply (proj2 (d_one _ _ _)) in Y. rewrite <- app_assoc. constructor; [exact X|]. apply (proj1 (d_one _ _ _)). now apply d_snoc. }
        destruct (negb _); [exact X|now right].
      + intros [whens ok] ts1 [E D] t2. cbn [fst snd] in E. subst ok. cbv beta iota. eapply ra_bind; [apply c_else|]. intros [e ok] ts2 [E H] t3. cbn [fst snd] in *. subst ok. apply ra_ret. split; [reflexivity|].
        rewrite app_nil_r. eexists (ts1 ++ ts2), []. rewrite app_nil_r. split; [reflexivity|split; [|reflexivity]].
        apply (d_app' o [when_; Star when_]); [exact D|]. now apply (proj1 (d_one _ _ _)).
    - intros [whens e] t2. walk. }
  split_on (negb (is_kw t0 "WHEN")); cbv beta iota zeta.
  - apply f_opt_yes. apply ra_assoc. eapply f_cons; [apply HE|]. intros e t2. apply (K x (Some e)).
  - apply f_opt_no. apply (K x None).
Qed.
(** WITH *)
Definition data_post (s : stmt) (ts : list tok) : Prop := with_allowed s = true -> derives o data ts.
Lemma kind_data s ts : with_allowed s = true -> derives o (N_ (kind s)) ts -> derives o data ts.
Proof. destruct s; cbn [with_allowed kind]; try discriminate; intros _ H; (eapply d_alt; [|exact H]); cbn; tauto. Qed.
Lemma c_with_block : calls (parse_with_block r) (Seq [name; W "AS"; paren [data]]).
Proof.
  rule_of. unfold parse_with_block. unfold paren. cbn [app]. apply f_seq. cbn [app]. do 4 walk1.
  apply (ra_bind o _ _ _ _ _ (fun y ts => exists s, y = Some s /\ derives o (N_ (kind s)) ts)).
  { apply ra_recovered. eapply ra_bind; [apply HS|]. intros [s|] ts H t3; cbn [stmt_post] in H; [|apply ra_expected_error]. apply ra_ret. rewrite app_nil_r. destruct H as [_ H]. eauto. }
  intros y ts (s & -> & D) t4. cbv beta iota zeta. destruct (with_allowed s) eqn:A.
  - eapply ra_conseq; [|intros b us H; apply (d_cons_follow _ _ _ _ _ _ _ _ (kind_data _ _ A D) H)]. walk.
  - doom.
Qed.
Hint Resolve c_with_block : reads.
Lemma c_with_query : calls (parse_with_query r) (N_ NWith).
Proof.
  rule_of. unfold parse_with_query, pg. destruct (is_postgresql (o_dialect o)) eqn:D.
  - apply f_seq. cbn [app]. walk1. walk1. walk1. eapply ra_bind; [apply HS|]. intros [s|] ts H t4; cbn [stmt_post] in H; [|apply ra_expected_failure].
    destruct H as [_ H]. cbv beta iota zeta. destruct (with_allowed s) eqn:A.
    + eapply ra_conseq; [|intros b us H2; apply (d_cons_follow _ _ _ _ _ _ _ _ (kind_data _ _ A H) H2)]. walk.
    + doom.
  - apply ra_doomed. eapply doom_bind; [apply c_keyword|]. intros x t1. eapply doom_bind; [apply c_sep_list, c_with_block|]. intros x1 t2. eapply ra_bind; [apply HS|]. intros [s|] ts _ t3; cbv beta iota zeta; [|apply ra_expected_failure].
    apply ra_assoc. destruct (with_allowed s); [|apply ra_err_at]. walk.
Qed.
(** Statements *)
Lemma post_plain t (p : prog stmt) n : gives p (plain_kind n) -> calls p (N_ n) -> reads_at t (pmap id p) (stmt_post o).
Proof.
  intros G H. unfold pmap. eapply ra_bind; [apply with_gives; [exact G|apply H]|]. intros s ts [D [K F]] t1. apply ra_ret. rewrite app_nil_r. change (reads_from_stdin s = false /\ derives o (N_ (kind s)) ts). split; [exact F|]. now rewrite K.
Qed.
Lemma post_data A t (p : prog A) (c : A -> stmt) n : (forall a, kind (c a) = n /\ reads_from_stdin (c a) = false) -> calls p (N_ n) -> reads_at t (pmap c p) (stmt_post o).
Proof. intros K H. unfold pmap. eapply ra_bind; [apply H|]. intros a ts D t1. apply ra_ret. rewrite app_nil_r. cbn [stmt_post]. destruct (K a) as [-> F]. now split. Qed.
Lemma post_other A t (p : prog A) (c : A -> stmt) n : (forall a, kind (c a) = NStmt /\ reads_from_stdin (c a) = false) -> calls p n -> In n (match rule o NStmt with Alt l => l | _ => [] end) -> reads_at t (pmap c p) (stmt_post o).
Proof.
  intros K H I. unfold pmap. eapply ra_bind; [apply H|]. intros a ts D t1. apply ra_ret. rewrite app_nil_r. cbn [stmt_post]. destruct (K a) as [-> F]. split; [exact F|]. apply d_rule. cbn [rule] in *. eapply d_alt; eauto.
Qed.
Lemma c_statement : reads (parse_statement r) (stmt_post o).
Proof.
  intros t. unfold parse_statement. apply ra_token.
  destruct (is_kw t "CREATE"); [eapply post_plain; [apply g_create|apply c_create; assumption]|].
  destruct (is_kw t "DROP"); [eapply post_plain; [apply g_drop|apply c_drop; assumption]|].
  destruct (is_kw t "SELECT" || tok_eqb t TLParen).
  { unfold pmap. eapply ra_bind; [apply with_gives; [apply g_compound, HQ|apply c_compound_query; assumption]|]. intros s ts [D Q] t1. apply ra_ret. rewrite app_nil_r. cbn [id stmt_post].
    destruct s; try contradiction Q; cbn [query_kind kind] in *; (split; [reflexivity|]); auto; try (apply (in_stmt o NQuery); auto; cbn; tauto). }
  destruct (is_kw t "DELETE"); [apply (post_data _ _ _ _ NDelete); [intros ?; split; reflexivity|apply c_delete; assumption]|].
  destruct (is_kw t "INSERT" || is_kw t "REPLACE"); [apply (post_data _ _ _ _ NInsert); [intros ?; split; reflexivity|apply c_insert; assumption]|].
  destruct (is_kw t "UPDATE"); [apply (post_data _ _ _ _ NUpdate); [intros ?; split; reflexivity|apply c_update; assumption]|].
  destruct (is_kw t "SET"); [apply (post_data _ _ _ _ NSet); [intros ?; split; reflexivity|apply c_set]|].
  destruct (is_kw t "SIGNAL"); [apply (post_data _ _ _ _ NSignal); [intros ?; split; reflexivity|apply c_signal]|].
  destruct (is_kw t "BEGIN").
  { apply ra_quiet; [reflexivity|]. intros [|]; [apply (post_data _ _ _ _ NBlock); [intros ?; split; reflexivity|apply c_block]|eapply post_other; [intros ?; split; reflexivity|apply c_keyword|cbn; tauto]]. }
  destruct (is_kw t "END").
  { apply ra_quiet; [reflexivity|]. intros [|]; [now apply ra_ret|]. eapply post_other; [intros ?; split; reflexivity|apply c_keyword|cbn; tauto]. }
  destruct (is_kw t "START"); [eapply post_other; [intros ?; split; reflexivity|apply c_keywords|cbn; tauto]|].
  destruct (is_kw t "COMMIT"); [eapply post_other; [intros ?; split; reflexivity|apply c_keyword|cbn; tauto]|].
  destruct (is_kw t "IF"); [apply (post_data _ _ _ _ NIf); [intros ?; split; reflexivity|apply c_if]|].
  destruct (is_kw t "RETURN"); [apply (post_data _ _ _ _ NReturn); [intros ?; split; reflexivity|apply c_return]|].
  destruct (is_kw t "ALTER"); [eapply post_plain; [apply g_alter|apply c_alter; assumption]|].
  destruct (is_kw t "CASE"); [apply (post_data _ _ _ _ NCase); [intros ?; split; reflexivity|apply c_case]|].
  destruct (is_kw t "COPY").
  { apply ra_doomed. unfold pmap, parse_copy_statement. repeat walk1d. }
  destruct (is_kw t "DO"); [eapply post_plain; [apply g_do|apply c_do]|].
  destruct (is_kw t "TRUNCATE"); [apply (post_data _ _ _ _ NTruncate); [intros ?; split; reflexivity|apply c_truncate]|].
  destruct (is_kw t "RENAME"); [apply (post_data _ _ _ _ NRename); [intros ?; split; reflexivity|apply c_rename]|].
  destruct (is_kw t "WITH"); [apply (post_data _ _ _ _ NWith); [intros ?; split; reflexivity|apply c_with_query]|].
  now apply ra_ret.
Qed.
End Grammar.
