(** C53, C54, C55: the functions of src/with_query.rs and src/statement.rs. *)
From Verif Require Export KeepDdl Statement.
From Verif Require AcceptStmt.
Local Open Scope string_scope.
Local Open Scope list_scope.

Section R.
Context {E : kenv}.
Variable r : recs.
Context {K : recs_keep r}.
Lemma parse_with_block_k : keeps_ (parse_with_block r).
Proof. unfold parse_with_block. kgo. Qed.
Hint Resolve parse_with_block_k : kspec.
Lemma parse_with_query_k : keeps_ (parse_with_query r).
Proof. unfold parse_with_query. kgo. Qed.
Lemma parse_set_k : keeps_ (parse_set r).
Proof. unfold parse_set. kgo. klist. Qed.
Lemma skip_tokens_k n w : mark w = false -> keeps_ (skip_tokens n w).
Proof. intros M. unfold skip_tokens. kgo. Qed.
Lemma parse_statement_list_inner_k t : kp t 0 (gfine uW) (parse_statement_list_inner r).
Proof.
  unfold parse_statement_list_inner. apply (kp_loop_acc _ uW); [|unfold uW; lia]. unfold uW at 1. intros l t1 c L.
  eapply kp_step; [apply skip_tokens_k; reflexivity|kintro]. eapply kp_bind; [exact (kk_item r _)|]. intros [v|] m [H1 H2] t3; knm.
  - apply kp_token. intros _. apply if_k; [intros _; kgo|]. assert (F : reads_from_stdin v = false) by (destruct v; auto; contradiction). rewrite F. kgo.
  - kgo.
Qed.
Lemma parse_statement_list_k t : kp t 0 (gfine uW) (parse_statement_list r).
Proof.
  unfold parse_statement_list. apply kp_delim. intros d D. apply kp_setdelim; [reflexivity|]. eapply kp_flow; [apply parse_statement_list_inner_k|].
  intros x n H t1. apply kp_setdelim; [exact D|]. now apply kp_ret.
Qed.
Lemma parse_statement_list_local_k : keeps_ (parse_statement_list_local r).
Proof.
  intros t. unfold parse_statement_list_local. eapply kp_flow; [apply parse_statement_list_k|]. intros [l ok] n [H1 H2] t1. cbn [fst snd] in *. subst ok. now apply kp_ret.
Qed.
Hint Resolve parse_statement_list_local_k : kspec.
Lemma parse_block_k : keeps_ (parse_block r).
Proof.
  intros t. unfold parse_block. eapply kp_step; [kspec|kintro]. eapply (kp_bind _ _ _ _ _ uW); [apply kp_recovered_acc, parse_statement_list_k|kintro].
  unfold skip_keyword at 1. apply kp_assoc, kp_token. intros T. assert (X : is_kw t1 "EXCEPTION" = false).
  { unfold tame in T. apply andb_true_iff in T as [T _]. apply andb_true_iff in T as [_ T]. now destruct (is_kw t1 "EXCEPTION"). }
  rewrite X. change (bind (Ret None) ?k) with (k (@None span)). cbv beta iota. kgo.
Qed.
Hint Resolve parse_block_k : kspec.
Lemma parse_if_condition_k x : keeps_ (parse_if_condition r x).
Proof. unfold parse_if_condition. kgo. Qed.
Hint Resolve parse_if_condition_k : kspec.
Lemma parse_else_k t c (g : option (span * list stmt) * bool -> nat -> Prop) : (forall x n, n <= kW x -> g (x, true) (c + n)) -> kp t c g (parse_else r).
Proof.
  intros H. unfold parse_else. eapply (rk_try _ _ _ _ _ (fun x n => n <= kW x)).
  - change (kp t 0 uW (e <- skip_keyword "ELSE" ;; match e with Some s => l <- parse_statement_list_local r ;; Ret (Some (s, l)) | None => Ret None end)). kgo.
  - intros x n L t1. apply rk_ret. rewrite Nat.add_0_r. auto.
Qed.
Lemma parse_if_k : keeps_ (parse_if r).
Proof.
  intros t. unfold parse_if. eapply kp_step; [kspec|kintro]. eapply (kp_bind _ _ _ _ _ uW); [|kintro; unpair; kgo].
  apply kp_recovered_acc. eapply kp_flow.
  - apply (kp_loop_acc _ (fun (x : list (if_condition expr stmt) * bool) n => n <= kW (fst x))); [|cbn [fst]; lia]. intros [l first] t2 c L1. cbn [fst] in L1. destruct first; kgo.
  - intros [[l b] ok] m [H1 H2] t2. cbn [fst snd] in *. subst ok. eapply kp_bind.
    { apply parse_else_k with (g := fun y n => snd y = true /\ n <= kW (fst y)). intros. now split. }
    intros [y ok] k [H3 H4] t3. cbn [fst snd] in *. subst ok. apply kp_ret. split; [reflexivity|]. cbn [fst]. unfold uW. kwx. lia.
Qed.
Lemma parse_return_k : keeps_ (parse_return r).
Proof. unfold parse_return. kgo. Qed.
Lemma parse_signal_set_k : keeps_ (parse_signal_set r).
Proof. unfold parse_signal_set. kgo. Qed.
Hint Resolve parse_signal_set_k : kspec.
Lemma parse_signal_k : keeps_ (parse_signal r).
Proof. unfold parse_signal. kgo. Qed.
Lemma parse_do_k : keeps_ (parse_do r).
Proof. unfold parse_do. kgo. destruct a1; [rewrite kW_nil in *; lia|]. fold (kW (s :: a1)). lia. Qed.
Lemma parse_when_statement_k : keeps_ (parse_when_statement r).
Proof. unfold parse_when_statement. kgo. Qed.
Hint Resolve parse_when_statement_k : kspec.
Lemma parse_case_statement_k : keeps_ (parse_case_statement r).
Proof.
  intros t. unfold parse_case_statement. eapply kp_step; [kspec|kintro]. apply kp_token. intros _. eapply (kp_bind _ _ _ _ _ uW); [solve [kgo]|kintro].
  eapply (kp_bind _ _ _ _ _ uW); [|kintro; unpair; kgo].
  apply kp_recovered_acc. eapply kp_flow.
  - apply (kp_loop_acc _ uW); [|unfold uW; lia]. unfold uW at 1. intros l t2 c L1. kgo.
  - intros [l ok] m [H1 H2] t2. cbn [fst snd] in *. subst ok. eapply kp_bind.
    { apply parse_else_k with (g := fun y n => snd y = true /\ n <= kW (fst y)). intros. now split. }
    intros [y ok] k [H3 H4] t3. cbn [fst snd] in *. subst ok. apply kp_ret. split; [reflexivity|]. cbn [fst]. unfold uW in *. kwx. lia.
Qed.
(** COPY … FROM STDIN needs the word STDIN. *)
Lemma kp_stdin B t c (g : B -> nat -> Prop) k : kp t c g (bind (consume_keyword "STDIN") k).
Proof.
  unfold consume_keyword. apply kp_assoc, kp_token. intros T. destruct t; try apply kp_expected_failure. rename t into v, k0 into q.
  destruct (kw_eqb q (KW "STDIN")) eqn:Q; [|apply kp_expected_failure]. exfalso. unfold tame, is_kw in T. rewrite Q in T. cbn [negb] in T. rewrite andb_false_r in T. discriminate.
Qed.
Lemma parse_copy_statement_k n t c (g : copy_ -> nat -> Prop) : kp t c g (parse_copy_statement n).
Proof.
  unfold parse_copy_statement. do 3 (eapply kp_step; [kspec|kintro]). apply kp_token. intros _. eapply (kp_bind _ _ _ _ _ uW); [solve [kgo]|kintro].
  do 2 (eapply kp_step; [kspec|kintro]). apply kp_stdin.
Qed.
(** Statements *)
Lemma pmap_k A (I : Atoms A) t (p : prog A) (c : A -> stmt) : keeps_ p -> (forall a, kW a <= kW (c a)) -> (forall a, reads_from_stdin (c a) = false) -> kp t 0 uS (pmap c p).
Proof.
  intros H W1 N. unfold pmap. eapply kp_step; [exact H|]. intros a n L t1. apply kp_ret. specialize (W1 a). specialize (N a). split; [change (kW (Some (c a))) with (kW (c a)); cbn; lia|].
  now destruct (c a).
Qed.
Lemma pmap_id_k t (p : prog stmt) : AcceptStmt.gives p (fun s => reads_from_stdin s = false) -> keeps_ p -> kp t 0 uS (pmap id p).
Proof.
  intros G H. unfold pmap. eapply (rk_bind _ _ _ _ _ (fun s n => n <= kW s /\ reads_from_stdin s = false)).
  - intros st Go T. specialize (H t st Go T). specialize (G st). destruct (run p st) as [a st'| | |]; auto. intros E0. destruct (H E0) as (xs & X & Y). exists xs. split; [exact X|]. split; [exact Y|].
    eapply G; reflexivity.
  - intros s n [L N] t1. apply rk_ret. split; [change (kW (Some (id s))) with (kW s); lia|]. now destruct s.
Qed.
Lemma gives_weaken A (p : prog A) (P Q : A -> Prop) : AcceptStmt.gives p P -> (forall a, P a -> Q a) -> AcceptStmt.gives p Q.
Proof. intros H L st a st' E0. eapply L, H, E0. Qed.
Lemma block_W l : kW l <= kW (SBlock (mkBlock l)).
Proof. kwx. destruct l; [rewrite kW_nil; lia|]. fold (kW (s :: l)). lia. Qed.
Variable HQ : AcceptStmt.gives (r_compound r) AcceptStmt.is_query.
Lemma parse_statement_k t : kp t 0 uS (parse_statement r).
Proof.
  unfold parse_statement. apply kp_token. intros _.
  apply if_k; [intros _; apply pmap_id_k; [eapply gives_weaken; [apply AcceptStmt.g_create|now intros ? []]|kspec]|].
  apply if_k; [intros _; apply pmap_id_k; [eapply gives_weaken; [apply AcceptStmt.g_drop|now intros ? []]|kspec]|].
  apply if_k; [intros _; apply pmap_id_k; [eapply gives_weaken; [apply AcceptStmt.g_compound, HQ|now intros []]|kspec]|].
  apply if_k; [intros _; eapply pmap_k; [kspec|intros; kwx; lia|reflexivity]|].
  apply if_k; [intros _; eapply pmap_k; [kspec|intros; kwx; lia|reflexivity]|].
  apply if_k; [intros _; eapply pmap_k; [kspec|intros; kwx; lia|reflexivity]|].
  apply if_k; [intros _; eapply pmap_k; [apply parse_set_k|intros; kwx; lia|reflexivity]|].
  apply if_k; [intros _; eapply pmap_k; [apply parse_signal_k|intros; kwx; lia|reflexivity]|].
  apply if_k; [intros _; apply kp_silent; [reflexivity|]; intros [|]; [eapply pmap_k; [apply parse_block_k|apply block_W|reflexivity]|eapply pmap_k; [kspec|intros; kwx; lia|reflexivity]]|].
  apply if_k; [intros _; apply kp_silent; [reflexivity|]; intros [|]; [apply kp_ret; split; [lia|exact I]|eapply pmap_k; [kspec|intros; kwx; lia|reflexivity]]|].
  apply if_k; [intros _; eapply pmap_k; [kspec|intros; kwx; lia|reflexivity]|].
  apply if_k; [intros _; eapply pmap_k; [kspec|intros; kwx; lia|reflexivity]|].
  apply if_k; [intros _; eapply pmap_k; [apply parse_if_k|intros; kwx; lia|reflexivity]|].
  apply if_k; [intros _; eapply pmap_k; [apply parse_return_k|intros; kwx; lia|reflexivity]|].
  apply if_k; [intros _; apply pmap_id_k; [eapply gives_weaken; [apply AcceptStmt.g_alter|now intros ? []]|kspec]|].
  apply if_k; [intros _; eapply pmap_k; [apply parse_case_statement_k|intros; kwx; lia|reflexivity]|].
  apply if_k; [intros _; unfold pmap; eapply kp_flow; [apply (parse_copy_statement_k _ _ _ (fun _ _ => False))|intros ? ? []]|].
  apply if_k; [intros _; apply pmap_id_k; [eapply gives_weaken; [apply AcceptStmt.g_do|now intros ? []]|apply parse_do_k]|].
  apply if_k; [intros _; eapply pmap_k; [kspec|intros; kwx; lia|reflexivity]|].
  apply if_k; [intros _; eapply pmap_k; [kspec|intros; kwx; lia|reflexivity]|].
  apply if_k; [intros _; eapply pmap_k; [apply parse_with_query_k|intros; kwx; lia|reflexivity]|].
  apply kp_ret. split; [lia|exact I].
Qed.
(** Scripts *)
Lemma skip_delimiters_k n t c : kp t c (fun _ m => m <= c) (skip_delimiters n).
Proof.
  unfold skip_delimiters. apply kp_loop with (gx := fun _ m => m <= c); [|lia]. intros _ t1 c1 L. kgo.
Qed.
Lemma parse_statements_step_k l t c : kscript = true -> c <= kW l -> kp t c uW (parse_statements_step r l).
Proof.
  intros Ks L. unfold parse_statements_step. eapply kp_flow; [apply skip_delimiters_k|]. intros [|] m M t1; [kgo|].
  apply kp_delimiter; [exact Ks| |].
  - intros s t2 Mk. apply kp_token. intros _. assert (F : kp t2 m uW (perf (OSetDelim t2) ;;; next ;;; Ret (inl l : list stmt + list stmt))).
    { apply kp_setdelim; [exact Mk|]. apply kp_next; [exact Mk|]. intros t3. kgo. }
    destruct (negb (known_delimiter t2)); [apply kp_assoc, kp_span; intros sp; apply kp_warn; exact F|exact F].
  - eapply (rk_try _ _ _ _ _ (fun v n => n <= kW v /\ reads_from_stdin v = false)).
    + eapply rk_bind; [exact (kk_item r _)|]. intros [v|] n [H1 H2] t2; [|apply rk_expected_failure']. apply rk_ret. rewrite Nat.add_0_r. split; [exact H1|]. now destruct v.
    + intros v n [H1 H2] t2. cbn [bind]. cbv zeta. cbn [is_some negb]. rewrite H2. 
      assert (X : forall p : prog (list stmt + list stmt), kp t2 (m + n) uW p -> rk t2 p (fun b n2 => uW b (m + (n + n2)))).
      { intros p H. eapply rk_conseq; [exact H|]. cbv beta. intros a k. now rewrite Nat.add_assoc. }
      apply X. clear X. apply kp_token. intros _. apply kp_delim. intros d D.
      destruct (tok_eqb t2 d) eqn:Td; cbn [negb].
      * change (bind (Ret false) ?k) with (k false). cbv beta iota. apply kp_delim. intros d2 D2. eapply kp_try; [apply consume_token_k; exact D2|kintro]. kgo.
      * apply kp_assoc, kp_assoc, kp_expected_error.
Qed.
End R.
