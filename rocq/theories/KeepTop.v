(** C53, C54, C55: the entry points. *)
From Verif Require Export KeepStmt Api.
From Verif Require AcceptTop.
Local Open Scope string_scope.
Local Open Scope list_scope.

(** ** The recursion *)
Lemma knot_keeps {E : kenv} n : recs_keep (knot n).
Proof.
  induction n as [|n IH].
  - constructor; cbn [knot r_expr r_compound r_stmt]; intros; apply kp_fuel || (intros t; apply kp_fuel).
  - constructor; cbn [knot r_expr r_compound r_stmt].
    + intros i. now apply parse_expression_k.
    + now apply parse_compound_query_k.
    + intros t. apply parse_statement_k; [exact IH|]. apply (AcceptTop.kn_gives default_options), AcceptTop.knot_accepts.
Qed.
(** ** What has been read when the end is reached *)
Lemma all_read {E : kenv} (e : tok * span) st ts xs st' : fst e = TEof -> AcceptTop.left_ e st ts -> Forall (fun x => fst x <> TEof) ts -> moves st xs st' -> s_tok st' = TEof ->
  exists ys, xs = ts ++ ys.
Proof.
  intros He L N (M & _) T. assert (A : ahead st (xs ++ [(s_tok st', s_span st')])) by (apply M; [discriminate|apply AcceptTop.ahead_cur]).
  destruct (AcceptTop.ahead_det _ _ _ A (L (length xs))) as (zs & Z); [rewrite !app_length, repeat_length; cbn; lia|].
  clear - Z N T. revert Z. generalize (S (length xs)). intros k Z. revert k xs Z. revert ts N. induction ts as [|t ts IH]; intros N k xs Z; [now exists xs|]. 
  inversion N; subst. destruct xs as [|x xs].
  - cbn in Z. injection Z as -> _. cbn in *. congruence.
  - cbn in Z. injection Z as -> Z. destruct (IH H2 _ _ Z) as (ys & ->). now exists ys.
Qed.
Lemma skip_delimiters_end n st st' : run (skip_delimiters n) st = ROk true st' -> s_tok st' = TEof.
Proof.
  unfold skip_delimiters. revert st. induction n as [|n IH]; intros st E; [discriminate|]. cbn [loop] in E. rewrite run_bind, AcceptTop.skip_step in E.
  destruct (tok_eqb (s_tok st) (s_delim st)).
  - destruct (p_next st) as [[] st1| |]; try discriminate. now apply IH in E.
  - cbn [run] in E. injection E as E <-. now apply tok_eqb_eq.
Qed.
(** An iteration that ends the loop without an Error has reached the end. *)
Lemma step_end {E : kenv} r l st l' st' : recs_keep r -> kgood st -> kscript = true -> run (parse_statements_step r l) st = ROk (inr l') st' -> ne st' = ne st -> s_tok st' = TEof.
Proof.
  intros K G Ks R Q. unfold parse_statements_step in R. rewrite run_bind in R. destruct (run (skip_delimiters (r_n r)) st) as [[|] st1| | |] eqn:E1; try discriminate.
  { cbn [run] in R. injection R as _ <-. eapply skip_delimiters_end; eauto. }
  pose proof (skip_delimiters_k (r_n r) _ 0 st G eq_refl) as H1. rewrite E1 in H1. pose proof (grown_ok _ _ _ _ _ E1) as Q1. pose proof (grown_ok _ _ _ _ _ R) as Q2.
  destruct H1 as (xs & X & _); [lia|]. pose proof (keats_good _ _ _ X G) as G1.
  match type of R with run ?p _ = _ => assert (Z : rk (s_tok st1) p (fun x _ => match x with inl _ => True | inr _ => False end)) end.
  2:{ specialize (Z st1 G1 eq_refl). rewrite R in Z. destruct Z as (? & _ & []). lia. }
  apply (kp_delimiter _ _ 0 (fun x _ => match x with inl _ => True | inr _ => False end)); [exact Ks| |].
  - intros s t2 Mk. apply kp_token. intros _. assert (F : kp t2 0 (fun (x : list stmt + list stmt) _ => match x with inl _ => True | inr _ => False end) (perf (OSetDelim t2) ;;; next ;;; Ret (inl l : list stmt + list stmt))).
    { apply kp_setdelim; [exact Mk|]. apply kp_next; [exact Mk|]. intros t3. now apply kp_ret. }
    destruct (negb (known_delimiter t2)); [apply kp_assoc, kp_span; intros sp; apply kp_warn; exact F|exact F].
  - eapply (rk_try _ _ _ _ _ (fun v n => reads_from_stdin v = false)).
    + eapply rk_bind; [exact (kk_item r _)|]. intros [v|] n [H1 H2] t2; [|apply rk_expected_failure']. apply rk_ret. now destruct v.
    + intros v n H2 t2. cbn [bind]. cbv zeta. cbn [is_some negb]. rewrite H2. 
      match goal with |- rk _ ?p _ => change (kp t2 0 (fun (x : list stmt + list stmt) _ => match x with inl _ => True | inr _ => False end) p) end.
      apply kp_token. intros _. apply kp_delim. intros d D.
      destruct (tok_eqb t2 d) eqn:Td; cbn [negb].
      * change (bind (Ret false) ?k) with (k false). cbv beta iota. apply kp_delim. intros d2 D2. eapply kp_try; [apply consume_token_k; exact D2|kintro]. now apply kp_ret.
      * apply kp_assoc, kp_assoc, kp_expected_error.
Qed.
Lemma loop_end {E : kenv} r n : recs_keep r -> kscript = true -> forall l st l' st', kgood st -> run (loop n (parse_statements_step r) l) st = ROk l' st' -> ne st' = ne st -> s_tok st' = TEof.
Proof.
  intros K Ks. induction n as [|n IH]; intros l st l' st' G R Q; [discriminate|]. cbn [loop] in R. rewrite run_bind in R.
  destruct (run (parse_statements_step r l) st) as [x st1| | |] eqn:E1; try discriminate. pose proof (grown_ok _ _ _ _ _ E1). pose proof (grown_ok _ _ _ _ _ R).
  destruct x as [l1|l1].
  - pose proof (parse_statements_step_k r l _ 0 Ks ltac:(lia) st G eq_refl) as Hs. rewrite E1 in Hs. destruct Hs as (xs & X & _); [lia|].
    eapply IH; [eapply keats_good; eauto|exact R|lia].
  - cbn [run] in R. injection R as <- <-. eapply step_end; eauto. 
Qed.
