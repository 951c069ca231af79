(** C56: the functions of Statement.v. *)
From Verif Require Export LayDml Statement.
From Verif Require AcceptStmt.
Local Open Scope string_scope.
Local Open Scope list_scope.

Lemma with_allowed_l f s : with_allowed (respan f s) = with_allowed s.
Proof. now destruct s. Qed.
Ltac lrw ::= rewrite ?with_allowed_l.
Section R.
Context {L : lenv}.
Variable r : recs.
Context {K : rrel r}.
Lemma parse_with_block_l : pr rm (parse_with_block r) (parse_with_block r).
Proof. unfold parse_with_block. lgo. Qed.
Hint Resolve parse_with_block_l : lspec.
Lemma parse_with_query_l : pr rm (parse_with_query r) (parse_with_query r).
Proof. unfold parse_with_query. lgo. Qed.
Hint Resolve parse_with_query_l : lspec.
Lemma parse_set_l : pr rm (parse_set r) (parse_set r).
Proof. unfold parse_set. lgo. Qed.
Hint Resolve parse_set_l : lspec.
Lemma skip_tokens_l n (w : tok) : okd w -> pr rm (skip_tokens n w) (skip_tokens n w).
Proof. intros. unfold skip_tokens. lgo. Qed.
Hint Resolve skip_tokens_l : lspec.
Lemma parse_statement_list_inner_l : pr rm (parse_statement_list_inner r) (parse_statement_list_inner r).
Proof.
  unfold parse_statement_list_inner. eapply (pr_loop_acc' (list stmt) _); [|reflexivity]. intros l. eapply (pr_bind unit _ rm); [lspec|lintro].
  eapply pr_bind; [exact rr_stmt_in|]. intros a1 a1' [-> H]. destruct a1 as [v|]; lnm; [|lgo]. rewrite (H _ eq_refl).
  assert (reads_from_stdin (respan lf v) = false) as -> by (specialize (H _ eq_refl); now destruct v). lgo.
Qed.
Hint Resolve parse_statement_list_inner_l : lspec.
Lemma parse_statement_list_l : pr rm (parse_statement_list r) (parse_statement_list r).
Proof. unfold parse_statement_list. lgo. Qed.
Hint Resolve parse_statement_list_l : lspec.
Lemma parse_statement_list_local_l : pr rm (parse_statement_list_local r) (parse_statement_list_local r).
Proof. unfold parse_statement_list_local. lgo. Qed.
Hint Resolve parse_statement_list_local_l : lspec.
Lemma parse_exception_handlers_l : pr rm (parse_exception_handlers r) (parse_exception_handlers r).
Proof. unfold parse_exception_handlers. lgo. Qed.
Hint Resolve parse_exception_handlers_l : lspec.
Lemma parse_block_l : pr rm (parse_block r) (parse_block r).
Proof. unfold parse_block. lgo. Qed.
Hint Resolve parse_block_l : lspec.
Lemma parse_if_condition_l (elseif_span elseif_span' : option span) : elseif_span' = respan lf elseif_span -> pr rm (parse_if_condition r elseif_span) (parse_if_condition r elseif_span').
Proof. intros ->. unfold parse_if_condition. lgo. Qed.
Hint Resolve parse_if_condition_l : lspec.
Lemma parse_else_l : pr rm (parse_else r) (parse_else r).
Proof. unfold parse_else. lgo. Qed.
Hint Resolve parse_else_l : lspec.
Lemma parse_if_l : pr rm (parse_if r) (parse_if r).
Proof. unfold parse_if. lgo. Qed.
Hint Resolve parse_if_l : lspec.
Lemma parse_return_l : pr rm (parse_return r) (parse_return r).
Proof. unfold parse_return. lgo. Qed.
Hint Resolve parse_return_l : lspec.
Lemma parse_signal_set_l : pr rm (parse_signal_set r) (parse_signal_set r).
Proof. unfold parse_signal_set. lgo. Qed.
Hint Resolve parse_signal_set_l : lspec.
Lemma parse_signal_l : pr rm (parse_signal r) (parse_signal r).
Proof. unfold parse_signal. lgo. Qed.
Hint Resolve parse_signal_l : lspec.
Lemma parse_do_l : pr rm (parse_do r) (parse_do r).
Proof. unfold parse_do. lgo. Qed.
Hint Resolve parse_do_l : lspec.
Lemma parse_when_statement_l : pr rm (parse_when_statement r) (parse_when_statement r).
Proof. unfold parse_when_statement. lgo. Qed.
Hint Resolve parse_when_statement_l : lspec.
Lemma parse_case_statement_l : pr rm (parse_case_statement r) (parse_case_statement r).
Proof. unfold parse_case_statement. lgo. Qed.
Hint Resolve parse_case_statement_l : lspec.
Lemma parse_copy_statement_l n : pr rm (parse_copy_statement n) (parse_copy_statement n).
Proof. unfold parse_copy_statement. lgo. Qed.
Hint Resolve parse_copy_statement_l : lspec.
(** The word STDIN is not there. *)
Lemma stdin_l : pr (fun _ _ => False) (consume_keyword "STDIN") (consume_keyword "STDIN").
Proof.
  unfold consume_keyword. apply pr_token. intros t t' [[H _] H']. destruct t; cbn [respelled] in H'; try (subst t'; apply pr_expected_failure). destruct H' as (v' & -> & _). unfold is_kw in H. rewrite H. apply pr_expected_failure.
Qed.
Lemma copy_fails n : pr (fun _ _ => False) (parse_copy_statement n) (parse_copy_statement n).
Proof.
  unfold parse_copy_statement. eapply (pr_bind span _ rm); [lspec|lintro]. eapply (pr_bind ident _ rm); [lspec|lintro]. eapply (pr_bind span _ rm); [lspec|lintro].
  apply pr_token. intros t t' Ht. eapply (pr_bind (list ident) _ rm); [lgo|lintro]. eapply (pr_bind span _ rm); [lspec|lintro]. eapply (pr_bind span _ rm); [lspec|lintro].
  eapply pr_bind; [exact stdin_l|contradiction].
Qed.
Lemma pr_gives A (R : A -> A -> Prop) (P : A -> Prop) p p' : pr R p p' -> AcceptStmt.gives p P -> pr (fun a a' => R a a' /\ P a) p p'.
Proof.
  intros H G st st' S. destruct (H st st' S) as [C|C]; [left|right; exact C]. destruct (run p st) eqn:E, (run p' st'); cbn in C |- *; auto. destruct C as [C1 C2]. split; [exact C1|]. split; [exact C2|]. eapply G; eauto.
Qed.
Lemma pmap_l A (I : Respan A) (f : A -> stmt) (p p' : prog A) : (forall a, f (respan lf a) = respan lf (f a)) -> (forall a, reads_from_stdin (f a) = false) -> pr rm p p' -> pr ro (pmap f p) (pmap f p').
Proof. intros F G P. unfold pmap. eapply (pr_bind A _ rm); [exact P|]. intros a a' ->. apply pr_ret. split; [rewrite F; reflexivity|]. intros s E. injection E as <-. apply G. Qed.
Lemma pmap_id_l (p p' : prog stmt) : pr rm p p' -> AcceptStmt.gives p (fun s => reads_from_stdin s = false) -> pr ro (pmap id p) (pmap id p').
Proof. intros P G. unfold pmap. eapply (pr_bind stmt _); [exact (pr_gives _ _ _ _ _ P G)|]. intros a a' [-> H]. apply pr_ret. split; [reflexivity|]. intros s E. injection E as <-. exact H. Qed.
Lemma gives_weaken A (p : prog A) (P Q : A -> Prop) : AcceptStmt.gives p P -> (forall a, P a -> Q a) -> AcceptStmt.gives p Q.
Proof. intros H I st a st' E. eapply I, H, E. Qed.
Variable HQ : AcceptStmt.gives (r_compound r) AcceptStmt.is_query.
Lemma if_l A (R : A -> A -> Prop) (c : bool) (p p' q q' : prog A) : pr R p p' -> pr R q q' -> pr R (if c then p else q) (if c then p' else q').
Proof. now destruct c. Qed.
Lemma parse_statement_l : pr ro (parse_statement r) (parse_statement r).
Proof.
  unfold parse_statement. apply pr_token. intros t t' Ht. rewrite !(rel_kw t t' Ht), ?(rel_eqb t t' Ht) by (intros _; reflexivity).
  apply if_l; [apply pmap_id_l; [lspec|eapply gives_weaken; [apply AcceptStmt.g_create|now intros ? []] ]|].
  apply if_l; [apply pmap_id_l; [lspec|eapply gives_weaken; [apply AcceptStmt.g_drop|now intros ? []] ]|].
  apply if_l; [apply pmap_id_l; [lspec|eapply gives_weaken; [apply AcceptStmt.g_compound, HQ|now intros []] ]|].
  do 5 (apply if_l; [eapply pmap_l; [reflexivity|reflexivity|lspec]|]).
  apply if_l; [apply pr_permit; intros [|]; [eapply (pmap_l (list stmt) _); [reflexivity|reflexivity|lspec]|eapply pmap_l; [reflexivity|reflexivity|lspec]]|].
  apply if_l; [apply pr_permit; intros [|]; [apply pr_ret; now split|eapply pmap_l; [reflexivity|reflexivity|lspec]]|].
  do 4 (apply if_l; [eapply pmap_l; [reflexivity|reflexivity|lspec]|]).
  apply if_l; [apply pmap_id_l; [lspec|eapply gives_weaken; [apply AcceptStmt.g_alter|now intros ? []] ]|].
  apply if_l; [eapply pmap_l; [reflexivity|reflexivity|lspec]|].
  apply if_l; [unfold pmap; eapply pr_bind; [apply copy_fails|contradiction]|].
  apply if_l; [apply pmap_id_l; [lspec|eapply gives_weaken; [apply AcceptStmt.g_do|now intros ? []] ]|].
  do 3 (apply if_l; [eapply pmap_l; [reflexivity|reflexivity|lspec]|]).
  apply pr_ret. now split.
Qed.
Lemma skip_delimiters_l n : pr rm (skip_delimiters n) (skip_delimiters n).
Proof. unfold skip_delimiters. lgo. Qed.
Hint Resolve skip_delimiters_l : lspec.
Lemma recover_statement_l n : pr rm (recover_statement n) (recover_statement n).
Proof. unfold recover_statement. lgo. Qed.
Hint Resolve recover_statement_l : lspec.
Lemma skip_delimiter_l : pr (fun a a' => a' = respan lf a /\ (a <> None -> lcase = false)) (skip_keyword "DELIMITER") (skip_keyword "DELIMITER").
Proof.
  unfold skip_keyword. apply pr_token. intros t t' Ht. rewrite (rel_kw t t' Ht). destruct (is_kw t "DELIMITER") eqn:E; [|apply pr_ret; split; [reflexivity|congruence]].
  assert (C : lcase = false). { destruct Ht as [[_ H] _]. destruct lcase; [|reflexivity]. specialize (H eq_refl). rewrite E, Bool.orb_true_r in H. discriminate. }
  eapply pr_conseq; [|intros a a' H; split; [exact H|intros _; exact C] ]. lgo.
Qed.
Lemma parse_statements_step_l (ans ans' : list stmt) : ans' = respan lf ans -> pr rm (parse_statements_step r ans) (parse_statements_step r ans').
Proof.
  intros ->. unfold parse_statements_step. eapply (pr_bind bool _ rm); [lspec|lintro]. destruct a; [lgo|]. eapply pr_bind; [exact skip_delimiter_l|]. intros a a' [-> Ha].
  destruct a as [a|]; lnm; [apply pr_token; intros t t' Ht; specialize (Ha ltac:(discriminate)); rewrite (rel_off t t' Ht Ha); lgo; intros C; congruence|]. clear Ha.
  assert (X : pr ro (Try (s <- r_stmt r ;; match s with Some v => Ret v | None => expected_failure "Statement" end) Ret)
                    (Try (s <- r_stmt r ;; match s with Some v => Ret v | None => expected_failure "Statement" end) Ret)).
  { eapply (pr_try stmt _ (fun v v' => v' = respan lf v /\ reads_from_stdin v = false)).
    - eapply pr_bind; [exact rr_stmt_in|]. intros a a' [-> H]. destruct a as [v|]; lnm; [|apply pr_expected_failure]. apply pr_ret. split; [reflexivity|now apply H].
    - intros a a' [-> H]. apply pr_ret. split; [reflexivity|]. now intros s [= <-].
    - apply pr_ret. split; [reflexivity|]. discriminate. }
  eapply pr_bind; [exact X|]. clear X. intros a a' [-> H].
  assert (match respan lf a with Some v => reads_from_stdin v | None => false end = false) as -> by (destruct a as [v|]; [specialize (H _ eq_refl); now destruct v|reflexivity]).
  assert (match a with Some v => reads_from_stdin v | None => false end = false) as -> by (destruct a as [v|]; [now apply H|reflexivity]).
  cbv beta iota zeta. rewrite respan_is_some.
  replace (match respan lf a with Some v => respan lf ans ++ [v] | None => respan lf ans end) with (respan lf (match a with Some v => ans ++ [v] | None => ans end)) by (destruct a; [apply respan_app|reflexivity]).
  generalize (match a with Some v => ans ++ [v] | None => ans end). intros ans2. lgo.
Qed.
Hint Resolve parse_statements_step_l : lspec.
Lemma parse_statements_loop_l : pr rm (parse_statements_loop r) (parse_statements_loop r).
Proof. unfold parse_statements_loop. lgo. Qed.
Hint Resolve parse_statements_loop_l : lspec.
End R.
#[export] Hint Resolve parse_with_block_l parse_with_query_l parse_set_l skip_tokens_l parse_statement_list_inner_l parse_statement_list_l parse_statement_list_local_l parse_exception_handlers_l parse_block_l parse_if_condition_l parse_else_l parse_if_l parse_return_l parse_signal_set_l parse_signal_l parse_do_l parse_when_statement_l parse_case_statement_l parse_copy_statement_l skip_delimiters_l recover_statement_l parse_statements_step_l parse_statements_loop_l : lspec.
