(** C51: the entry points follow the grammar. *)
From Verif Require Export AcceptStmt.
Local Open Scope string_scope.
Local Open Scope list_scope.

(** ** The recursion *)
Record knotted (o : options) (r : recs) : Prop := mkKnotted {
  kn_expr : forall b, calls o (r_expr r b) (N_ (NExpr b));
  kn_query : reads o (r_compound r) (fun s ts => derives o (N_ (match s with SSelect _ => NSingle | _ => NQuery end)) ts);
  kn_gives : gives (r_compound r) is_query;
  kn_stmt : reads o (r_stmt r) (stmt_post o) }.
Lemma knot_accepts o n : knotted o (knot n).
Proof.
  induction n as [|n [HE HC HQ HS]].
  - constructor; cbn [knot r_expr r_compound r_stmt].
    + intros b t. apply ra_fuel.
    + intros t. apply ra_fuel.
    + intros st a st' E. discriminate E.
    + intros t. apply ra_fuel.
  - constructor; cbn [knot r_expr r_compound r_stmt].
    + intros b. now apply c_expression.
    + intros t. eapply ra_conseq; [now apply c_compound_query|]. intros s ts. destruct s; exact (fun H => H).
    + now apply g_compound.
    + now apply c_statement.
Qed.

(** ** No derived token is the end of the input *)
Fixpoint eofless (a : g) : bool :=
  match a with
  | T t => negb (tok_eqb t TEof)
  | Seq l | Alt l => forallb eofless l
  | Opt a | Star a => eofless a
  | _ => true
  end.
Lemma rule_eofless o n : eofless (rule o n) = true.
Proof. destruct o as [d a u c h]; destruct n; try destruct no_as; try destruct inner; destruct d, h; reflexivity. Qed.
Lemma derives_eofless o a ts : derives o a ts -> eofless a = true -> Forall (fun t => t <> TEof) ts.
Proof.
  induction 1; cbn [eofless forallb]; intros E; repeat match goal with X : (_ && _)%bool = true |- _ => apply andb_prop in X as [? ?] end; auto.
  - constructor; [|constructor]. intros ->. discriminate.
  - constructor; [|constructor]. intros ->. discriminate.
  - constructor; [|constructor]. intros ->. destruct c; discriminate.
  - apply IHderives, rule_eofless.
  - apply Forall_app. auto.
  - apply IHderives. rewrite forallb_forall in E. auto.
  - apply Forall_app. auto.
Qed.
Lemma derives_no_eof o n ts : derives o (N_ n) ts -> Forall (fun t => t <> TEof) ts.
Proof. intros H. apply (derives_eofless o (N_ n) ts H). reflexivity. Qed.

(** ** What is left of the source *)
Definition left_ (e : tok * span) (st : pst) (ts : tks) : Prop := forall k, ahead st (ts ++ repeat e (S k)).
Lemma lexes_det l xs : forall ys, lexes l xs -> lexes l ys -> length xs <= length ys -> exists zs, ys = xs ++ zs.
Proof.
  revert l. induction xs as [|x xs IH]; intros l [|y ys] A B L; cbn in *; try lia; eauto.
  destruct A as (l1 & E1 & A), B as (l2 & E2 & B). rewrite E1 in E2. injection E2 as -> ->. destruct (IH l2 ys A B) as (zs & ->); [lia|]. now exists zs.
Qed.
Lemma ahead_det st xs ys : ahead st xs -> ahead st ys -> length xs <= length ys -> exists zs, ys = xs ++ zs.
Proof.
  destruct xs as [|x xs]; [intros _ _ _; now exists ys|]. destruct ys as [|y ys]; [intros _ _ L; inversion L|]. intros [-> A] [-> B] L. apply le_S_n in L. destruct (s_peek st) as [p|].
  - destruct xs as [|x xs]; [eexists; reflexivity|]. destruct ys as [|y ys]; [inversion L|]. destruct A as [-> A], B as [-> B].
    destruct (lexes_det _ _ _ A B) as (zs & ->); [exact (le_S_n _ _ L)|]. now exists zs.
  - destruct (lexes_det _ _ _ A B) as (zs & ->); [exact L|]. now exists zs.
Qed.
Lemma ahead_cur st : ahead st [(Parser.s_tok st, s_span st)].
Proof. cbn. destruct (s_peek st); auto. Qed.
Section Left.
Variable e : tok * span.
Hypothesis He : fst e = TEof.
Notation left_ := (left_ e).
Lemma left_cur st x ts : left_ st (x :: ts) -> Parser.s_tok st = fst x.
Proof. intros H. destruct (H 0) as [-> _]. reflexivity. Qed.
Lemma left_eof st : left_ st [] -> Parser.s_tok st = TEof.
Proof. intros H. specialize (H 0). destruct H as [E _]. rewrite E in He. exact He. Qed.
Lemma left_keeps st st' ts : keeps st st' -> left_ st ts -> left_ st' ts.
Proof. intros K H k. apply (keeps_eats _ _ K); [destruct ts; discriminate|apply H]. Qed.
Lemma prefix_of n ws : forall xs ts, ts ++ repeat e n = xs ++ ws -> Forall (fun x => fst x <> TEof) xs -> exists us, ts = xs ++ us.
Proof.
  induction xs as [|x xs IH]; intros ts Z N; [now exists ts|]. inversion N; subst. destruct ts as [|t ts].
  - destruct n; [discriminate|]. cbn in Z. injection Z as <- _. contradiction.
  - cbn in Z. injection Z as -> Z. destruct (IH ts Z) as (us & ->); auto. now exists us.
Qed.
Lemma left_eats st xs st' ts : eats st xs st' -> left_ st ts -> Forall (fun x => fst x <> TEof) xs -> exists us, ts = xs ++ us /\ left_ st' us.
Proof.
  intros [E _] H N. assert (A : ahead st (xs ++ [(Parser.s_tok st', s_span st')])) by (apply E; [discriminate|apply ahead_cur]).
  assert (P : exists us, ts = xs ++ us).
  { destruct (ahead_det _ _ _ A (H (length xs))) as (zs & Z); [rewrite !app_length, repeat_length; cbn; lia|]. rewrite <- app_assoc in Z. eapply prefix_of; eauto. }
  destruct P as (us & ->). exists us. split; [reflexivity|]. intros k. apply E; [destruct us; discriminate|]. rewrite app_assoc. apply H.
Qed.
Lemma left_clean st ts : left_ st ts -> Forall (fun x => is_kw (fst x) "STDIN" = false) ts -> clean st.
Proof.
  intros H N us A. destruct (ahead_det _ _ _ A (H (length us))) as (zs & Z); [rewrite app_length, repeat_length; lia|].
  assert (F : Forall (fun x => is_kw (fst x) "STDIN" = false) (us ++ zs)).
  { rewrite <- Z. apply Forall_app. split; [exact N|]. apply Forall_forall. intros x I. apply repeat_spec in I as ->. now rewrite He. }
  now apply Forall_app in F as [F _].
Qed.
Lemma left_next_eof st st' : p_next st = XOk tt st' -> left_ st [] -> left_ st' [].
Proof.
  intros E H. apply next_eats in E as [E _]. intros k. apply E; [discriminate|]. assert (Ec : e = (Parser.s_tok st, s_span st)) by exact (proj1 (H 0)).
  rewrite <- Ec. exact (H (S k)).
Qed.
Lemma left_next st st' x ts : p_next st = XOk tt st' -> left_ st (x :: ts) -> left_ st' ts.
Proof.
  intros E H. apply next_eats in E as [E _]. intros k. apply E; [destruct ts; discriminate|]. assert (Ec : x = (Parser.s_tok st, s_span st)) by exact (proj1 (H 0)). rewrite <- Ec. exact (H k).
Qed.
End Left.

(** ** parse_statement *)
Section Top.
Variable o : options.
Variable e : tok * span.
Hypothesis He : fst e = TEof.
Notation left_ := (left_ e).
Lemma body_accepts n st ts s st' : good o st -> left_ st ts -> Forall (fun x => fst x <> TEof) ts ->
  run (parse_statement_body (knot n)) st = ROk (Some s) st' -> ne st' = ne st -> derives o (N_ (kind s)) (map fst ts).
Proof.
  intros G L N E Q. unfold parse_statement_body in E. rewrite run_try in E.
  assert (HS : reads o (parse_statement (knot n)) (stmt_post o)) by exact (kn_stmt _ _ (knot_accepts o (S n))).
  specialize (HS _ st G eq_refl). destruct (run (parse_statement (knot n)) st) as [x st1|st1|w|] eqn:E1; try discriminate.
  pose proof (grown_ok _ _ _ _ _ E1) as L1. destruct x as [v|].
  2: { rewrite run_bind in E. destruct (run (expected_error _) st1); discriminate. }
  rewrite run_bind, run_token in E. rewrite run_bind in E. destruct (tok_eqb (Parser.s_tok st1) TEof) eqn:Te; cbn [negb] in E.
  - cbn [run] in E. injection E as <- <-. destruct (HS Q) as (xs & X & _ & D).
    assert (Nx : Forall (fun x => fst x <> TEof) xs) by (apply derives_no_eof in D; now rewrite Forall_map in D).
    destruct (left_eats _ He _ _ _ _ X L Nx) as (us & -> & L'). destruct us as [|u us]; [now rewrite app_nil_r|].
    apply left_cur in L'. apply Forall_app in N as [_ N]. inversion N; subst. apply tok_eqb_eq in Te. congruence.
  - exfalso. pose proof (ra_expected_error o unit (Parser.s_tok st1) "Unexpected token after statement" (fun _ => Ret tt) (fun _ _ => False)) as H.
    assert (Q1 : ne st1 = ne st).
    { destruct (run (expected_error _) st1) eqn:E2; try discriminate. cbn [run] in E. injection E as _ <-. pose proof (grown_ok _ _ _ _ _ E2). lia. }
    destruct (HS Q1) as (xs & X & _). specialize (H st1 (eats_good _ _ _ _ X G) eq_refl). rewrite run_bind in H.
    destruct (run (expected_error _) st1) as [[] st2| | |] eqn:E2; try discriminate. cbn [run] in *. injection E as _ <-. destruct H as (? & _ & []). lia.
Qed.

(** ** parse_statements *)
Notation noeof := (Forall (fun x : tok * span => fst x <> TEof)).
(** Delimiters *)
Lemma next_same st st' : p_next st = XOk tt st' -> ne st' = ne st /\ s_delim st' = s_delim st /\ s_opts st' = s_opts st.
Proof.
  unfold p_next. destruct (s_peek st) as [[]|]; [injection 1 as <-; auto|]. destruct (next_token _) as [[]|]; [|discriminate]. injection 1 as <-. auto.
Qed.
Lemma skip_step st : run (t <- token ;; d <- perf ODelim ;;
    (if tok_eqb t d then consume ;;; Ret (inl tt) else if tok_eqb t TEof then Ret (inr true) else Ret (inr false) : prog (unit + bool))) st =
  if tok_eqb (Parser.s_tok st) (s_delim st) then
    match p_next st with XOk _ st' => ROk (inl tt) st' | XPanic w => RPanic w | XFuel => RFuel end
  else ROk (inr (tok_eqb (Parser.s_tok st) TEof)) st.
Proof.
  rewrite run_bind, run_token, run_bind, run_perf. cbn [exec]. destruct (tok_eqb _ (s_delim st)).
  - rewrite run_bind. unfold consume. rewrite run_bind, run_span, run_bind. unfold next. rewrite run_perf. cbn [exec]. now destruct (p_next st).
  - now destruct (tok_eqb _ TEof).
Qed.
Lemma skips n : forall st b st' ts, run (skip_delimiters n) st = ROk b st' -> left_ st ts -> noeof ts -> (s_delim st = TEof -> ts = []) ->
  ne st' = ne st /\ s_delim st' = s_delim st /\ s_opts st' = s_opts st /\ s_delim st <> TEof /\ Parser.s_tok st' <> s_delim st /\ b = tok_eqb (Parser.s_tok st') TEof /\
  exists xs us, ts = xs ++ us /\ left_ st' us /\ Forall (fun x => fst x = s_delim st) xs.
Proof.
  unfold skip_delimiters. induction n as [|n IH]; intros st b st' ts E L N Z; [discriminate|]. cbn [loop] in E. rewrite run_bind, skip_step in E.
  destruct (tok_eqb (Parser.s_tok st) (s_delim st)) eqn:Ed.
  - apply tok_eqb_eq in Ed. destruct (p_next st) as [[] st1| |] eqn:En; try discriminate. destruct (next_same _ _ En) as (N1 & N2 & N3). destruct ts as [|x ts].
    + pose proof (left_next_eof e _ _ En L) as L1. specialize (IH st1 b st' [] E L1 N (fun _ => eq_refl)). destruct IH as (_ & _ & _ & D & _).
      rewrite (left_eof e He _ L) in Ed. congruence.
    + pose proof (left_next e _ _ _ _ En L) as L1. pose proof (left_cur e _ _ _ L) as C. inversion N; subst. 
      destruct (IH st1 b st' ts E L1) as (I1 & I2 & I3 & I4 & I5 & I6 & xs & us & I7 & I8 & I9); [assumption|rewrite N2; intros X; specialize (Z X); discriminate|]. rewrite N1, N2, N3 in *.
      do 6 (split; [assumption|]). exists (x :: xs), us. rewrite I7. split; [reflexivity|]. split; [exact I8|]. constructor; [congruence|assumption].
  - cbn [run] in E. injection E as <- <-. assert (Ne : Parser.s_tok st <> s_delim st) by (intros X; apply tok_eqb_eq in X; congruence).
    destruct (tok_eqb (s_delim st) TEof) eqn:Dt.
    + exfalso. apply tok_eqb_eq in Dt. specialize (Z Dt). subst ts. apply (left_eof e He) in L. congruence.
    + do 3 (split; [reflexivity|]). split; [intros X; apply tok_eqb_eq in X; congruence|]. split; [exact Ne|]. split; [reflexivity|]. exists [], ts. split; [reflexivity|]. split; [exact L|constructor].
Qed.
Lemma script_delims d (xs : tks) ts n : Forall (fun x => fst x = d) xs -> script o d ts n -> script o d (map fst xs ++ ts) n.
Proof. induction 1 as [|x xs H _ IH]; intros S; [exact S|]. cbn. rewrite H. constructor. now apply IH. Qed.
Lemma good_opts st st' : s_opts st' = s_opts st -> s_opts st = o -> s_opts st' = o.
Proof. congruence. Qed.
Notation nostdin := (Forall (fun x : tok * span => is_kw (fst x) "STDIN" = false)).
Lemma reads_kw k : reads o (skip_keyword k) (fun a ts => match a with Some _ => exists t, ts = [t] /\ is_kw t k = true | None => ts = [] end).
Proof. intros t. apply ret_skip, ra_skip_kw; [intros E s t1|intros _]; apply ra_ret; eauto. Qed.
Definition item (r : recs) : prog (option stmt) := Try (s <- r_stmt r ;; match s with Some v => Ret v | None => expected_failure "Statement" end) Ret.
Lemma reads_item r : reads o (r_stmt r) (stmt_post o) -> reads o (item r) (fun x ts => exists v, x = Some v /\ reads_from_stdin v = false /\ derives o (N_ NStmt) ts).
Proof.
  intros HS t. unfold item. eapply ra_try' with (R1 := fun v ts => reads_from_stdin v = false /\ derives o (N_ NStmt) ts).
  - eapply ra_bind; [apply HS|]. intros [s|] ts1 H t1; [|apply ra_expected_failure']. destruct H as [H D]. apply ra_ret. rewrite app_nil_r. split; [exact H|]. eapply kind_stmt; eauto.
  - intros v ts1 [H D] t1. apply ra_ret. rewrite app_nil_r. eauto.
Qed.
Lemma exp_error_grows m st u st' : run (expected_error m) st = ROk u st' -> ne st < ne st'.
Proof.
  unfold expected_error. rewrite run_bind, run_span. unfold err_frags. rewrite run_perf. cbn [exec]. unfold p_issue. destruct (slice _ _ _); [|discriminate]. destruct (build_frags _ _); [|discriminate].
  injection 1 as _ <-. unfold ne, set_issues. cbn [s_issues]. rewrite filter_app, app_length. cbn. lia.
Qed.
(** One round of [parse_statements]. *)
Lemma step_accepts r ans st x st' ts : reads o (r_stmt r) (stmt_post o) -> s_opts st = o -> left_ st ts -> noeof ts -> nostdin ts -> (s_delim st = TEof -> ts = []) ->
  run (parse_statements_step r ans) st = ROk x st' -> ne st' = ne st ->
  match x with
  | inl l => s_opts st' = o /\ exists us, left_ st' us /\ noeof us /\ nostdin us /\ (s_delim st' = TEof -> us = []) /\ exists k, length l = k + length ans /\
      forall n, (s_delim st' <> TEof) -> script o (s_delim st') (map fst us) n -> script o (s_delim st) (map fst ts) (k + n)
  | inr l => l = ans /\ script o (s_delim st) (map fst ts) 0
  end.
Proof.
  intros HS O L N Ns Z E Q. unfold parse_statements_step in E. rewrite run_bind in E. destruct (run (skip_delimiters (r_n r)) st) as [b st1| | |] eqn:E1; try discriminate.
  destruct (skips _ _ _ _ _ E1 L N Z) as (Q1 & D1 & O1 & Dn & C1 & -> & xs & us & -> & L1 & X1).
  apply Forall_app in N as [_ N]. apply Forall_app in Ns as [_ Ns]. rewrite map_app.
  destruct (tok_eqb (Parser.s_tok st1) TEof) eqn:Te.
  - cbn [run] in E. injection E as <- <-. split; [reflexivity|]. apply script_delims; [exact X1|]. destruct us as [|u us]; [constructor|].
    apply left_cur in L1. apply Forall_inv in N. apply tok_eqb_eq in Te. congruence.
  - assert (G1 : good o st1) by (split; [congruence|eapply left_clean; eauto]). 
    rewrite run_bind in E. pose proof (reads_kw "DELIMITER" _ st1 G1 eq_refl) as K. destruct (run (skip_keyword "DELIMITER") st1) as [k st2| | |] eqn:E2; try discriminate.
    pose proof (grown_ok _ _ _ _ _ E2) as Q2. destruct k as [ks|].
    + rewrite run_bind, run_token in E. set (d := Parser.s_tok st2) in *. rewrite run_bind in E.
      assert (W : forall y st3, run (if negb (known_delimiter d) then s <- cur_span ;; warn "Unknown delimiter" s else Ret tt) st2 = ROk y st3 -> keeps st2 st3 /\ ne st2 <= ne st3).
      { intros y st3 R. split; [|exact (grown_ok _ _ _ _ _ R)]. destruct (negb (known_delimiter d)).
        - rewrite run_bind, run_span in R. unfold warn in R. rewrite run_perf in R. cbn [exec] in R. destruct (p_issue _ _ _ _ st2) as [[] st4| |] eqn:I; try discriminate. injection R as _ <-. eapply issue_keeps; eauto.
        - cbn [run] in R. injection R as _ <-. now repeat split. }
      destruct (run _ st2) as [y st3| | |] eqn:E3; try discriminate. destruct (W _ _ eq_refl) as [K3 Q3]. clear W.
      rewrite run_bind, run_perf in E. cbn [exec] in E. rewrite run_bind in E. unfold next in E. rewrite run_perf in E. cbn [exec] in E. set (st4 := mkPst _ _ _ _ _ _ _ _ _ _) in E.
      destruct (p_next st4) as [[] st5| |] eqn:E5; try discriminate. cbn [run] in E. injection E as <- <-.
      destruct (next_same _ _ E5) as (N1 & N2 & N3). change (s_delim st4) with d in N2. change (s_opts st4) with (s_opts st3) in N3. change (ne st4) with (ne st3) in N1. destruct K as (ys & Y & u & Eu & Ku); [lia|].
      destruct ys as [|x2 [|]]; try discriminate Eu. injection Eu as Eu.
      assert (Ny : noeof [x2]) by (constructor; [intros X; rewrite X in Eu; rewrite <- Eu in Ku; discriminate|constructor]). rewrite <- Eu in Ku.
      destruct (left_eats _ He _ _ _ _ Y L1 Ny) as (us2 & -> & L2). assert (L4 : left_ st4 us2) by exact (left_keeps _ _ _ _ K3 L2).
      pose proof (Forall_inv_tail N) as N'. pose proof (Forall_inv_tail Ns) as Ns'.
      assert (O5 : s_opts st5 = o) by (destruct K3 as (_ & _ & _ & _ & K3 & _), Y as (_ & Y & _); congruence).
      split; [exact O5|]. destruct us2 as [|u2 us2].
      * exists []. split; [eapply left_next_eof; eauto|]. split; [constructor|]. split; [constructor|]. split; [reflexivity|]. exists 0. split; [reflexivity|].
        intros n Hd. exfalso. apply Hd. rewrite N2. exact (left_eof _ He _ L2).
      * exists us2. split; [eapply left_next; eauto|]. split; [exact (Forall_inv_tail N')|]. split; [exact (Forall_inv_tail Ns')|]. pose proof (Forall_inv N') as Nu.
        pose proof (left_cur _ _ _ _ L2) as C2. fold d in C2. split; [intros X; congruence|]. exists 0. split; [reflexivity|]. cbn [plus]. intros n _ S. 
        apply script_delims; [exact X1|]. cbn [map app]. rewrite N2, C2 in S. now constructor.
    + assert (R2 : ne st2 = ne st1 -> st2 = st1).
      { intros _. unfold skip_keyword in E2. rewrite run_bind, run_token in E2. destruct (is_kw (Parser.s_tok st1) "DELIMITER"); [|cbn [run] in E2; now injection E2 as <-].
        rewrite run_try in E2. destruct (run (consume_keyword "DELIMITER") st1); discriminate. }
      rewrite run_bind in E. destruct (run (Try _ Ret) st2) as [v st3| | |] eqn:E3; try discriminate. pose proof (grown_ok _ _ _ _ _ E3) as Q3.
      rewrite run_bind, run_token, run_bind, run_perf in E. cbn [exec] in E. pose proof (grown_ok _ _ _ _ _ E) as Q4.
      assert (E2' : st2 = st1) by (apply R2; lia). subst st2. pose proof (reads_item r HS _ st1 G1 eq_refl) as H3. change (run (item r) st1 = ROk v st3) in E3. rewrite E3 in H3.
      destruct H3 as (ys & Y & w & -> & Sd & D); [lia|]. cbn [is_some negb] in E. rewrite Sd in E.
      assert (Ny : noeof ys) by (apply derives_no_eof in D; now rewrite Forall_map in D).
      destruct (left_eats _ He _ _ _ _ Y L1 Ny) as (us2 & -> & L3). apply Forall_app in N as [_ N]. apply Forall_app in Ns as [_ Ns].
      assert (D3 : s_delim st3 = s_delim st) by (destruct Y as (_ & _ & Y); congruence).
      assert (O3 : s_opts st3 = o) by (destruct Y as (_ & Y & _); congruence).
      rewrite run_bind in E. destruct (tok_eqb (Parser.s_tok st3) (s_delim st3)) eqn:Td; cbn [negb] in E.
      * cbn [run] in E. rewrite run_bind, run_perf in E. cbn [exec] in E. rewrite run_try in E. unfold consume_token in E. rewrite run_bind, run_token, Td in E. cbn [negb] in E.
        apply tok_eqb_eq in Td. unfold consume in E. rewrite run_bind, run_span, run_bind in E. unfold next in E. rewrite run_perf in E. cbn [exec] in E. destruct (p_next st3) as [[] st4| |] eqn:E4; try discriminate.
        cbn [run] in E. injection E as <- <-. destruct (next_same _ _ E4) as (N1 & N2 & N3). split; [congruence|]. destruct us2 as [|u us2].
        { apply (left_eof e He) in L3. congruence. }
        exists us2. split; [eapply left_next; eauto|]. split; [exact (Forall_inv_tail N)|]. split; [exact (Forall_inv_tail Ns)|]. split; [congruence|]. 
        exists 1. split; [rewrite app_length; cbn; lia|]. intros n _ S. apply script_delims; [exact X1|]. rewrite map_app. cbn [map].
        pose proof (left_cur _ _ _ _ L3) as C3. rewrite <- C3, Td, D3. rewrite N2, D3 in S. now constructor.
      * exfalso. rewrite run_bind in E. destruct (run (expected_error _) st3) as [[] st4| | |] eqn:E4; try discriminate. apply exp_error_grows in E4.
        destruct (run (recover_statement (r_n r)) st4) as [b st5| | |] eqn:E5; try discriminate. pose proof (grown_ok _ _ _ _ _ E5). pose proof (grown_ok _ _ _ _ _ E). lia.
Qed.
Lemma loop_accepts r n : reads o (r_stmt r) (stmt_post o) -> forall ans st l st' ts, s_opts st = o -> left_ st ts -> noeof ts -> nostdin ts -> (s_delim st = TEof -> ts = []) ->
  run (loop n (parse_statements_step r) ans) st = ROk l st' -> ne st' = ne st -> exists k : nat, length l = k + length ans /\ s_delim st <> TEof /\ script o (s_delim st) (map fst ts) k.
Proof.
  intros HS. induction n as [|n IH]; intros ans st l st' ts O L N Ns Z E Q; [discriminate|]. cbn [loop] in E. rewrite run_bind in E.
  destruct (run (parse_statements_step r ans) st) as [x st1| | |] eqn:E1; try discriminate. pose proof (grown_ok _ _ _ _ _ E1) as Q1. pose proof (grown_ok _ _ _ _ _ E) as Q2.
  assert (Dn : s_delim st <> TEof).
  { clear E. unfold parse_statements_step in E1. rewrite run_bind in E1. destruct (run (skip_delimiters (r_n r)) st) as [b st9| | |] eqn:E9; try discriminate.
    now destruct (skips _ _ _ _ _ E9 L N Z) as (_ & _ & _ & Dn & _). }
  pose proof (step_accepts _ _ _ _ _ _ HS O L N Ns Z E1 ltac:(lia)) as S. destruct x as [l1|l1].
  - destruct S as (O1 & us & L1 & N1 & Ns1 & Z1 & k & Hk & S). destruct (IH _ _ _ _ _ O1 L1 N1 Ns1 Z1 E ltac:(lia)) as (k2 & H2 & D2 & S2).
    exists (k + k2). split; [lia|]. split; [exact Dn|]. now apply S.
  - cbn [run] in E. injection E as <- <-. destruct S as [-> S]. exists 0. now split.
Qed.
End Top.
