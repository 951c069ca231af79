(** The recursion of the parser and the entry points: the safety specification of the whole. *)
From Verif Require Export SafeStmt Api.
Local Open Scope string_scope.
Local Open Scope list_scope.

(** ** Tying the knot *)
#[export] Instance knot_cp n : recs_cp (knot n).
Proof.
  induction n as [|n IH]; constructor; try (intros S; exact I); cbn [knot r_compound r_stmt].
  - exact (@compound_ncp _ IH).
  - exact (@statement_cp _ IH).
Qed.
#[export] Instance knot_ok {V : env} n : recs_ok (knot n).
Proof.
  induction n as [|n IH].
  - constructor; intros; intros S Hw Hm; cbn in Hm; lia.
  - assert (E : r_n (knot (S n)) - 1 = r_n (knot n)) by (destruct n; reflexivity).
    constructor; intros; rewrite E; cbn [knot r_expr r_compound r_stmt].
    + eapply spec_d0, parse_expression_spec; exact IH.
    + eapply spec_d0, parse_compound_query_spec; exact IH.
    + eapply spec_d0, parse_statement_spec; [exact IH|apply knot_cp].
Qed.
Lemma r_n_knot n : r_n (knot n) = S n.
Proof. destruct n; reflexivity. Qed.

(** ** Programs that cannot fail *)
Definition nf {A} (p : prog A) : Prop := forall S S', rung p S <> GErr S'.
Lemma nf_bind A B (p : prog A) (k : A -> prog B) : nf p -> (forall a, nf (k a)) -> nf (bind p k).
Proof. intros H1 H2 S S'. rewrite rung_bind. specialize (H1 S). destruct (rung p S) as [a S1|S1| |]; try discriminate; [apply H2|].
  intros E. injection E as ->. now apply (H1 S'). Qed.
Lemma nf_ret A (a : A) : nf (Ret a). Proof. intros S S'. discriminate. Qed.
Lemma nf_panic A w : nf (@Panic A w). Proof. intros S S'. discriminate. Qed.
Lemma nf_op A X (o : op X) (k : X -> prog A) : (forall x, nf (k x)) -> nf (Op o k).
Proof. intros H S S'. cbn [rung]. destruct (exec o (g_st S)); try discriminate. apply H. Qed.
Lemma nf_perf X (o : op X) : nf (perf o). Proof. apply nf_op. intros. apply nf_ret. Qed.
Lemma nf_try A X (p : prog X) (k : option X -> prog A) : (forall x, nf (k x)) -> nf (Try p k).
Proof. intros H S S'. cbn [rung]. destruct (rung p S); try discriminate; apply H. Qed.
Lemma nf_loop X A n (body : X -> prog (X + A)) : (forall x, nf (body x)) -> forall x, nf (loop n body x).
Proof.
  intros H. induction n as [|n IH]; intros x S S'; [discriminate|]. cbn [loop]. apply nf_bind; [apply H|].
  intros [y|y]; [apply IH|apply nf_ret].
Qed.
Ltac nf_go :=
  lazymatch goal with
  | |- nf (bind _ _) => apply nf_bind; [|intros]; nf_go
  | |- nf (Ret _) => apply nf_ret
  | |- nf (Panic _) => apply nf_panic
  | |- nf (perf _) => apply nf_perf
  | |- nf (loop _ _ _) => apply nf_loop; intros; nf_go
  | |- nf (Try _ _) => apply nf_try; intros; nf_go
  | |- nf (match ?x with _ => _ end) => destruct x; nf_go
  | |- nf token => unfold token; nf_go
  | |- nf next => unfold next; nf_go
  | |- nf cur_span => unfold cur_span; nf_go
  | |- nf consume => unfold consume; nf_go
  | |- nf (err_frags _ _ _) => unfold err_frags; nf_go
  | |- nf (warn _ _) => unfold warn; nf_go
  | |- nf (expected_error _) => unfold expected_error; nf_go
  | |- nf (skip_keyword _) => unfold skip_keyword; nf_go
  | |- nf (skip_delimiters _) => unfold skip_delimiters; nf_go
  | |- nf (recover_statement _) => unfold recover_statement; nf_go
  | _ => idtac
  end.
Lemma statements_nf r : nf (parse_statements_loop r).
Proof. unfold parse_statements_loop, parse_statements_step. nf_go. Qed.
Lemma statement_body_nf r : nf (parse_statement_body r).
Proof. unfold parse_statement_body. nf_go. Qed.

(** The command DELIMITER at the very end of the input, followed by nothing but blanks and comments. *)
Definition delimiter_at_end (src : text) : Prop :=
  exists pre v post, src = pre ++ v ++ post /\ upper v = txt "DELIMITER" /\ trivia_end post.

Section Top.
Context {V : env}.
Definition ex (E S : gst) : Prop := cx (setd E (s_delim (g_st S))) S.
Lemma ex_refl S : wf S -> ex S S.
Proof. intros H. unfold ex. rewrite setd_id. now apply cx_refl. Qed.
Lemma ex_cx E S S' : ex E S -> cx S S' -> ex E S'.
Proof. unfold ex. intros H1 H2. rewrite (c_delim _ _ H2). eapply cx_trans; eauto. Qed.
Lemma cx_ex S S' : cx S S' -> ex S S'.
Proof. intros H. unfold ex. rewrite (c_delim _ _ H), setd_id. exact H. Qed.
Lemma ex_trans a b c : ex a b -> ex b c -> ex a c.
Proof. unfold ex. intros H1 H2. eapply cx_trans; [|exact H2]. eapply setd_cx. exact H1. Qed.
Lemma ex_setd E S d : ex E S -> ex E (setd S d).
Proof. unfold ex. intros H. destruct S as [[] l]. cbn in *. apply setd_cx with (d' := d) in H. exact H. Qed.
Lemma m_setd S d : m (setd S d) = m S. Proof. reflexivity. Qed.
Lemma AA_setd S d : AA (setd S d) = AA S. Proof. reflexivity. Qed.
Lemma ex_wf E S : ex E S -> wf S. Proof. intros H. apply H. Qed.
Lemma ex_m E S : ex E S -> m S <= m E. Proof. intros H. apply (c_m _ _ H). Qed.
Lemma ex_A E S : ex E S -> AA E <= AA S. Proof. intros H. exact (cx_A _ _ H). Qed.
Lemma ex_nerr E S : ex E S -> nerr E <= nerr S. Proof. intros H. exact (c_nerr _ _ H). Qed.

Definition any (_ : gst) : Prop := True.
Lemma wp_any T (p : prog T) Q F S : wp p Q F S -> wp p Q any S.
Proof. intros H. eapply wp_conseq; [exact H|auto|]. easy. Qed.
Lemma tok_eqb_refl_eof t : tok_eqb t TEof = is_eof t.
Proof. destruct t; reflexivity. Qed.

Lemma skip_delimiters_wp n : forall S, wf S -> is_eof (s_delim (g_st S)) = false -> m S < n ->
  wp (skip_delimiters n) (fun b S' => cx S S' /\ tok_eqb (tk S') (s_delim (g_st S')) = false /\ b = is_eof (tk S')) any S.
Proof.
  unfold skip_delimiters. induction n as [|n IH]; intros S Hw Hd Hm; [lia|]. cbn [loop]. apply wp_bind. apply step_token, step_delim.
  destruct (tok_eqb (tk S) _) eqn:Et.
  - pose proof (tok_eqb_live _ _ Et Hd) as Hl. eapply step_consume; [now apply cx_refl|]. intros S1 C1 _ M1 _ _. rewrite Hl in M1. cbn in M1.
    apply wp_ret. eapply wp_conseq; [apply IH; [apply C1|now rewrite (c_delim _ _ C1)|lia]| |auto].
    intros b S2 (C2 & H2). split; [eapply cx_trans; eauto|exact H2].
  - rewrite tok_eqb_refl_eof. destruct (is_eof (tk S)) eqn:Ee; apply wp_ret; apply wp_ret; (split; [now apply cx_refl|auto]).
Qed.
Lemma recover_statement_wp n : forall S, wf S -> m S + b2n (is_eof (tk S)) < n ->
  wp (recover_statement n) (fun b S' => cx S S' /\ s_peek (g_st S') = None /\
      if b : bool then is_eof (tk S') = true else tok_eqb (tk S') (s_delim (g_st S')) = true) any S.
Proof.
  unfold recover_statement. induction n as [|n IH]; intros S Hw Hm; [lia|]. cbn [loop]. apply wp_bind.
  apply wp_bind. pose proof (next_ok _ (wf_late _ Hw)) as X. unfold next, perf. apply wp_op; cbn [exec log_step].
  2: { intros w E. now rewrite E in X. } 2: { intros E. now rewrite E in X. }
  intros x st' E. rewrite E in X. apply wp_compat. intros Kc. destruct (X Kc) as (C1 & M1 & _ & P1 & _). set (S1 := mkG st' (g_log S)) in *. apply wp_ret.
  apply step_token, step_delim. destruct (tok_eqb (tk S1) _) eqn:Et; [apply wp_ret; apply wp_ret; auto|].
  rewrite tok_eqb_refl_eof. destruct (is_eof (tk S1)) eqn:Ee; [apply wp_ret; apply wp_ret; auto|]. apply wp_ret.
  eapply wp_conseq; [apply IH; [apply C1|]| |auto].
  - rewrite Ee. cbn [b2n]. destruct (is_eof (tk S)); cbn [b2n negb] in *; lia.
  - intros b S2 (C2 & H2). split; [eapply cx_trans; eauto|exact H2].
Qed.

Lemma skip_keyword_gap k S : wf S ->
  wp (skip_keyword k) (fun a S' => match a with
      | Some s => cx S S' /\ m S' + 1 <= m S /\ is_kw (tk S) k = true /\ gap_at src (snd (sp S)) (fst (sp S')) /\ s_peek (g_st S') = None
      | None => S' = S /\ is_kw (tk S) k = false end) any S.
Proof.
  intros Hw. unfold skip_keyword. apply step_token. destruct (is_kw (tk S) k) eqn:Ek; [|apply wp_ret; auto].
  pose proof (is_kw_inv _ _ Ek) as [v Et]. apply wp_try. unfold consume_keyword. apply step_token. rewrite Et.
  assert (R : kw_eqb (KW k) (KW k) = true) by (cbn; apply String.eqb_refl). rewrite R. apply step_span.
  eapply step_lint_caps; [now apply cx_refl|eapply wf_keyword; [exact Hw|exact Et|eauto]|]. intros S' C _ M1 N1 A1 T1 P1.
  eapply wp_conseq; [eapply (wp_and _ _ (fun _ S2 => cx S S2 /\ m S2 + b2n (negb (is_eof (tk S'))) <= m S' /\ gap_at src (snd (sp S')) (fst (sp S2))) _ (fun _ => False)); [|apply rets_consume]| |].
  { change consume with (bind consume Ret). eapply step_consume; [exact C|]. intros S2 C2 X2 M2 A2 G. apply wp_ret.
    exact (conj C2 (conj M2 G)). }
  2: { intros S2 []. }
  intros a S2 [(C2 & M2 & G) Pk]. rewrite T1, Et in M2. cbn in M2. apply wp_ret. rewrite P1 in G. repeat split; auto; try apply C2. lia.
Qed.
(** A state at the end of the input in which the end of the input is the delimiter. *)
Record stuck (S : gst) : Prop := mkStuck {
  u_tok : tk S = TEof; u_peek : s_peek (g_st S) = None; u_rest : l_rest (s_lex (g_st S)) = []; u_delim : s_delim (g_st S) = TEof }.
Lemma next_eof st : s_peek st = None -> l_rest (s_lex st) = [] ->
  exists st', p_next st = XOk tt st' /\ s_tok st' = TEof /\ s_peek st' = None /\ l_rest (s_lex st') = [] /\ s_delim st' = s_delim st.
Proof.
  intros P R. unfold p_next. rewrite P. unfold next_token. rewrite R. cbn [length next_token_f]. rewrite ?R.
  eexists. split; [reflexivity|]. cbn. auto.
Qed.
Lemma stuck_loops S : stuck S -> forall n, rung (skip_delimiters n) S = GFuel.
Proof.
  intros U n. revert S U. unfold skip_delimiters. induction n as [|n IH]; intros S [T P R D]; [reflexivity|].
  cbn [loop]. rewrite rung_bind. unfold tk in T. destruct (next_eof _ P R) as (st' & E & T' & P' & R' & D').
  cbn. rewrite T, D. cbn. rewrite E. cbn. apply IH. constructor; unfold tk; cbn; auto. congruence.
Qed.
(** Programs that only report issues keep the position. *)
Lemma warn_keeps t s S : match rung (warn t s) S with
  GOk _ S' => s_lex (g_st S') = s_lex (g_st S) /\ s_peek (g_st S') = s_peek (g_st S) /\ tk S' = tk S | _ => True end.
Proof.
  cbn. unfold p_issue. destruct (slice _ _ _); [|exact I]. destruct (build_frags _ _); [|exact I]. repeat split.
Qed.
Lemma eof_rest S : wf S -> is_eof (tk S) = true -> s_peek (g_st S) = None -> l_rest (s_lex (g_st S)) = [].
Proof.
  intros Hw He Hp. destruct (w_tok _ _ Hw) as (T & w & At & _). specialize (T He). apply wat_wspan in At. destruct At as [(L & _) _].
  pose proof (w_nxt _ _ Hw) as N. rewrite Hp in N. pose proof (w_src _ _ Hw) as Es. destruct (w_lwf _ _ Hw) as (pre & E1 & E2).
  rewrite Es in E1. apply (f_equal blen) in E1. rewrite blen_app in E1. destruct (l_rest (s_lex (g_st S))) as [|c rest]; [reflexivity|].
  pose proof (utf8_len_pos c). cbn in E1. lia.
Qed.
Lemma delimiter_end S S' : wf S -> wf S' -> is_kw (tk S) "DELIMITER" = true -> gap_at src (snd (sp S)) (fst (sp S')) ->
  is_eof (tk S') = true -> delimiter_at_end src.
Proof.
  intros Hw Hw' Hk (pre & g & rest & E & E1 & E2 & G) He.
  destruct (w_tok _ _ Hw) as (_ & w & [(pre0 & post & E3 & F1 & F2) _] & T). apply is_kw_inv in Hk as [v Ht]. rewrite Ht in T. cbn in T.
  destruct T as (-> & _ & Kk). destruct (kw_of_text_cases (upper v)) as [X|(s & X1 & _ & X2)]; [congruence|].
  rewrite X1 in Kk. injection Kk as <-.
  destruct (w_tok _ _ Hw') as (He' & _). specialize (He' He).
  assert (rest = []).
  { apply (f_equal blen) in E. rewrite !blen_app in E. destruct rest as [|c rest]; [reflexivity|].
    assert (blen (c :: rest) = 0) by lia. pose proof (utf8_len_pos c). cbn in H. lia. }
  subst rest. exists pre0, v, g. split; [|split; [now symmetry|destruct G as [G|[_ G]]; [now apply te_end|exact G]]].
  assert (pre0 ++ v = pre).
  { rewrite F2 in E1. assert (B : blen (pre0 ++ v) = blen pre) by (rewrite blen_app; lia).
    rewrite app_assoc in E3. rewrite E in E3. clear - E3 B.
    remember (pre0 ++ v) as a. clear Heqa. rewrite app_nil_r in E3. revert pre E3 B. induction a as [|x a IH]; intros [|y pre] E B; auto.
    - cbn in B. pose proof (utf8_len_pos y). lia.
    - cbn in B. pose proof (utf8_len_pos x). lia.
    - cbn in E. injection E as -> E. f_equal. apply IH; auto. cbn in B. lia. }
  subst pre. rewrite E, app_nil_r, <- app_assoc. reflexivity.
Qed.
Variable r : recs.
Context {K : recs_ok r} {KC : recs_cp r}.
Definition dlive (S : gst) : Prop := is_eof (s_delim (g_st S)) = false.
Definition wres {A B} (x : A + B) : nat := match x with inl _ => 1 | inr _ => 0 end.
Definition sumv (x : list stmt + list stmt) : list stmt := match x with inl l => l | inr l => l end.

Lemma statements_step_wp ans S : wf S -> dlive S -> m S < r_n r - 1 -> Forall (ok nb) (atoms ans) ->
  wp (parse_statements_step r ans) (fun x S' => ex S S' /\ (dlive S' \/ wres x = 1 /\ stuck S' /\ delimiter_at_end src) /\ m S' + wres x <= m S /\ AA S + gW (sumv x) <= AA S' + gW ans /\
     Forall (ok nb) (atoms (sumv x)) /\ match x with inl _ => True | inr _ => is_eof (tk S') = true end) any S.
Proof.
  intros Hw Hd Hm Ha. unfold parse_statements_step. apply wp_bind.
  eapply wp_conseq; [apply skip_delimiters_wp; [exact Hw|exact Hd|lia]| |auto]. intros eof S1 (C1 & D1 & ->).
  assert (Hd1 : dlive S1) by (unfold dlive; now rewrite (c_delim _ _ C1)). pose proof (cx_A _ _ C1). pose proof (c_m _ _ C1).
  destruct (is_eof (tk S1)) eqn:Ee.
  { apply wp_ret. split; [now apply cx_ex|]. cbn [wres sumv]. repeat split; auto; lia. }
  apply wp_bind. eapply wp_conseq; [apply skip_keyword_gap, C1| |auto].
  intros [k|] S2.
  - intros (C2 & M2 & Kw & G & Pk). pose proof (cx_A _ _ C2). apply step_token.
    apply wp_bind.
    assert (W : wp (if negb (known_delimiter (tk S2)) then s <- cur_span ;; warn "Unknown delimiter" s else Ret tt)
       (fun _ S3 => cx S2 S3 /\ s_lex (g_st S3) = s_lex (g_st S2) /\ s_peek (g_st S3) = s_peek (g_st S2) /\ tk S3 = tk S2) any S2).
    { destruct (negb _); [|apply wp_ret; split; [apply cx_refl, C2|auto]]. apply step_span.
      assert (X : wp (warn "Unknown delimiter" (sp S2)) (fun _ S3 => cx S2 S3) any S2).
      { change (warn "Unknown delimiter" (sp S2)) with (bind (warn "Unknown delimiter" (sp S2)) Ret).
        eapply step_warn; [apply cx_refl, C2|apply wf_wspan, C2|reflexivity|]. intros S3 X1 _ _ _ _ X2 _. apply wp_ret. auto. }
      pose proof (warn_keeps "Unknown delimiter" (sp S2) S2) as Y. unfold wp in *. destruct (rung _ S2) as [u S3|S3|w|]; auto. }
    eapply wp_conseq; [exact W| |auto]. intros _ S3 (C3 & L3 & P3 & T3). apply step_setdelim. set (S4 := setd S3 (tk S2)).
    assert (X4 : ex S S4). { apply ex_setd. apply cx_ex. eapply cx_trans; [exact C1|]. eapply cx_trans; eauto. }
    pose proof (c_m _ _ C3). pose proof (cx_A _ _ C3).
    assert (N5 : wp next (fun _ S5 => cx S4 S5 /\ (is_eof (tk S2) = true -> stuck S5)) any S4).
    { pose proof (next_ok _ (wf_late _ (ex_wf _ _ X4))) as X. unfold next, perf. apply wp_op; cbn [exec log_step].
      2: { intros w E. now rewrite E in X. } 2: { intros E. now rewrite E in X. }
      intros x st' E. rewrite E in X. apply wp_compat. intros Kc. destruct (X Kc) as (C5 & _). apply wp_ret. split; [exact C5|]. intros He.
      pose proof (eof_rest S2 (c_wf _ _ C2) He Pk) as Rs.
      destruct (next_eof (g_st S4)) as (st5 & E5 & F1 & F2 & F3 & F4); [cbn; congruence|cbn; now rewrite L3|].
      rewrite E in E5. injection E5 as _ <-. constructor; unfold tk in *; cbn; auto. rewrite F4. cbn.
      destruct (s_tok (g_st S2)); easy. }
    apply wp_bind. eapply wp_conseq; [exact N5| |auto]. intros _ S5 [C5 U5]. pose proof (c_m _ _ C5). pose proof (cx_A _ _ C5).
    apply wp_ret. split; [eapply ex_cx; eauto|]. cbn [wres sumv].
    unfold S4 in *. rewrite ?m_setd, ?AA_setd in *. repeat split; auto; try lia. destruct (is_eof (tk S2)) eqn:Hl.
    + right. split; [reflexivity|]. split; [auto|]. eapply (delimiter_end S1 S2); eauto; [apply C1|apply C2].
    + left. unfold dlive. rewrite (c_delim _ _ C5). exact Hl.
  - intros [-> Kw]. apply wp_bind. apply wp_try.
    assert (W : wp (s <- r_stmt r;; match s with Some v => Ret v | None => expected_failure "Statement" end)
       (fun v S2 => cx S1 S2 /\ AA S1 + gW v <= AA S2 /\ Forall (ok nb) (atoms v) /\ (reads_from_stdin v = true -> s_peek (g_st S2) = None))
       (fpost S1) S1).
    { apply wp_bind. eapply wp_conseq; [eapply wp_and; [apply (@k_stmt _ r K); [apply C1|lia]|apply (@k_cp r KC)]| |auto].
      intros [v|] S2 [(C2 & M2 & N2 & A2 & O2) Cp].
      - apply wp_ret. rewrite gW_some in A2. repeat split; auto; try apply C2. lia.
      - now apply wp_expected_failure. }
    assert (T : forall (s : option stmt) S2, cx S1 S2 -> AA S1 + gW s <= AA S2 -> Forall (ok nb) (atoms s) ->
       (match s with Some v => reads_from_stdin v = true -> s_peek (g_st S2) = None | None => True end) ->
       wp (let err := negb (is_some s) in
      let from_stdin := match s with Some v => reads_from_stdin v | None => false end in
      let ans := match s with Some v => ans ++ [v] | None => ans end in
      t <- token ;;
      d <- perf ODelim ;;
      eof <- (if negb (tok_eqb t d) then
                (if negb err then expected_error (tok_name d) else Ret tt) ;;;
                recover_statement (r_n r)
              else Ret false) ;;
      if eof : bool then Ret (inr ans)
      else if from_stdin then
        '(x, sp) <- perf OStdin ;;
        Ret (inl (ans ++ [SStdin (mkStdin x sp)]))
      else
        d <- perf ODelim ;;
        Try (consume_token d) (fun x =>
          match x with Some _ => Ret (inl ans) | None => Panic PDelimiter end))
        (fun x S' => ex S S' /\ (dlive S' \/ wres x = 1 /\ stuck S' /\ delimiter_at_end src) /\ m S' + wres x <= m S /\ AA S + gW (sumv x) <= AA S' + gW ans /\
     Forall (ok nb) (atoms (sumv x)) /\ match x with inl _ => True | inr _ => is_eof (tk S') = true end) any S2).
    { clear W. intros s S2 C2 A2 O2 Cp. cbv zeta. set (err := negb (is_some s)). clearbody err.
      set (ans' := match s with Some v => ans ++ [v] | None => ans end).
      assert (Oa : Forall (ok nb) (atoms ans')) by (unfold ans'; destruct s; norm; okg).
      assert (Aa : gW ans' = gW ans + gW s) by (unfold ans'; destruct s; norm; gwx; lia). clearbody ans'.
      set (fs := match s with Some v => reads_from_stdin v | None => false end).
      assert (Hf : fs = true -> s_peek (g_st S2) = None) by (unfold fs; destruct s; [exact Cp|discriminate]). clearbody fs. clear Cp.
      apply step_token, step_delim. apply wp_bind. pose proof (c_m _ _ C2) as M2.
      assert (Rc : forall S3, cx S2 S3 ->
        wp (recover_statement (r_n r)) (fun b S' => cx S2 S' /\ s_peek (g_st S') = None /\
           if b : bool then is_eof (tk S') = true else tok_eqb (tk S') (s_delim (g_st S')) = true) any S3).
      { intros S3 C3. pose proof (c_m _ _ C3). eapply wp_conseq; [apply recover_statement_wp; [apply C3|]| |auto].
        - destruct (is_eof (tk S3)); cbn [b2n]; lia.
        - intros b S4 (X1 & X2). split; [eapply cx_trans; eauto|exact X2]. }
      assert (W : wp (if negb (tok_eqb (tk S2) (s_delim (g_st S2))) then
                (if negb err then expected_error (tok_name (s_delim (g_st S2))) else Ret tt) ;;;
                recover_statement (r_n r)
              else Ret false)
         (fun b S' => cx S2 S' /\ (fs = true -> s_peek (g_st S') = None) /\
           if b : bool then is_eof (tk S') = true else tok_eqb (tk S') (s_delim (g_st S')) = true) any S2).
      { destruct (tok_eqb (tk S2) _) eqn:Et; cbn [negb].
        - apply wp_ret. split; [apply cx_refl, C2|auto].
        - destruct (negb err).
          + eapply step_expected; [apply cx_refl, C2|]. intros S3 C3 _ _ _ _ _ _.
            eapply wp_conseq; [now apply Rc| |auto]. intros b S4 (X1 & X2 & X3). auto.
          + eapply wp_conseq; [apply (Rc S2), cx_refl, C2| |auto]. intros b S4 (X1 & X2 & X3). auto. }
      eapply wp_conseq; [exact W| |auto]. clear W Rc. intros b S3 (C3 & P3 & T3).
      assert (C4 : cx S1 S3) by (eapply cx_trans; eauto). assert (C5 : cx S S3) by (eapply cx_trans; eauto).
      pose proof (c_m _ _ C4). pose proof (cx_A _ _ C3). assert (Hd3 : dlive S3) by (unfold dlive in *; now rewrite (c_delim _ _ C5)).
      destruct b.
      { apply wp_ret. split; [now apply cx_ex|]. cbn [wres sumv]. repeat split; auto; lia. }
      pose proof (tok_eqb_live _ _ T3 Hd3) as L3.
      destruct fs.
      - eapply step_stdin; [exact C5|auto|]. intros d sp0 S4 X1 X2 M4 A4 At _. rewrite L3 in M4. cbn in M4. apply wp_ret.
        split; [now apply cx_ex|]. cbn [wres sumv].
        assert (Y : Forall (ok nb) (atoms (SStdin (mkStdin d sp0)))) by (constructor; [exact At|constructor; [eapply wat_wspan, At|constructor]]).
        assert (Y' : gW (SStdin (mkStdin d sp0)) = 0) by (change (wt (AText d sp0) + (wt (ASpan sp0) + 0) = 0); now rewrite wt_text, wt_span).
        set (sd := SStdin (mkStdin d sp0)) in *. clearbody sd.
        repeat split; auto; try lia.
        + left; unfold dlive in *; now rewrite (c_delim _ _ X1).
        + gwx. lia.
        + okg.
      - apply step_delim. apply wp_try. unfold consume_token. apply step_token. rewrite T3.
        change consume with (bind consume Ret). eapply step_consume; [exact C5|]. intros S4 X1 X2 M4 A4 _. rewrite L3 in M4. cbn in M4.
        apply wp_ret, wp_ret. split; [now apply cx_ex|]. cbn [wres sumv]. repeat split; auto; try lia. left; unfold dlive in *; now rewrite (c_delim _ _ X1). }
    eapply wp_conseq; [exact W| |].
    + intros v S2 (C2 & A2 & O2 & Cp). apply wp_ret. apply (T (Some v)); auto.
    + intros S2 [C2 N2]. apply wp_ret. apply (T None); auto; [rewrite gW_none; pose proof (cx_A _ _ C2); lia|constructor].
Qed.
Lemma statements_loop_wp n : forall ans S, wf S -> dlive S -> m S < r_n r - 1 -> m S < n -> Forall (ok nb) (atoms ans) ->
  match rung (loop n (parse_statements_step r) ans) S with
  | GOk l S' => compat S' -> ex S S' /\ AA S + gW l <= AA S' + gW ans /\ Forall (ok nb) (atoms l) /\ is_eof (tk S') = true
  | GErr _ => True
  | GPanic w => fin_issues = None -> pan w
  | GFuel => fin_issues = None -> delimiter_at_end src
  end.
Proof.
  induction n as [|n IH]; intros ans S Hw Hd Hm Hn Ha; [lia|]. cbn [loop]. rewrite rung_bind.
  pose proof (statements_step_wp ans S Hw Hd Hm Ha) as H. unfold wp in H.
  destruct (rung (parse_statements_step r ans) S) as [x S1|S1|w|]; auto; [|easy].
  destruct x as [l|l]; cbn [wres sumv] in *.
  - pose proof (compat_rung _ (loop n (parse_statements_step r) l) S1) as C.
    assert (N0 : fin_issues = None -> compat S1) by (unfold compat, finally; now intros ->).
    assert (Z : compat S1 -> match rung (loop n (parse_statements_step r) l) S1 with
      | GOk l S' => compat S' -> ex S S' /\ AA S + gW l <= AA S' + gW ans /\ Forall (ok nb) (atoms l) /\ is_eof (tk S') = true
      | GErr _ => True
      | GPanic w => fin_issues = None -> pan w
      | GFuel => fin_issues = None -> delimiter_at_end src end).
    { intros K1. destruct (H K1) as (X1 & D1 & M1 & A1 & O1 & T1). destruct D1 as [D1|(_ & U & D)].
      + specialize (IH l S1 (ex_wf _ _ X1) D1 ltac:(lia) ltac:(lia) O1). destruct (rung (loop n _ l) S1) as [l' S2|S2|w|]; auto.
        intros K2. destruct (IH K2) as (X2 & A2 & O2 & T2). split; [eapply ex_trans; eauto|]. repeat split; auto. lia.
      + destruct n as [|n]; [intros _; exact D|]. cbn [loop]. rewrite rung_bind. unfold parse_statements_step. rewrite rung_bind, stuck_loops; auto. }
    destruct (rung (loop n _ l) S1) as [l' S2|S2|w|]; auto.
  - cbn [rung]. intros K1. destruct (H K1) as (X1 & D1 & M1 & A1 & O1 & T1). auto.
Qed.
Lemma statement_body_wp S : wf S -> m S < r_n r ->
  wp (parse_statement_body r) (fun s S' => cx S S' /\ AA S + gW s <= AA S' /\ Forall (ok nb) (atoms s) /\
     match s with None => nerr S < nerr S' | Some _ => nerr S < nerr S' \/ is_eof (tk S') = true end) any S.
Proof.
  intros Hw Hm. unfold parse_statement_body. apply wp_try.
  eapply wp_conseq; [now apply parse_statement_spec| |].
  - intros [v|] S1 (C1 & M1 & N1 & A1 & O1).
    + apply step_token. rewrite tok_eqb_refl_eof. destruct (is_eof (tk S1)) eqn:Ee; cbn [negb].
      * apply wp_ret. repeat split; auto; try apply C1. lia.
      * eapply step_expected; [exact C1|]. intros S2 C2 X _ N2 A2 _ _. apply wp_ret. pose proof (c_nerr _ _ C1). pose proof (cx_A _ _ X).
        repeat split; auto; try apply C2; [lia|left; lia].
    + eapply step_expected; [exact C1|]. intros S2 C2 X _ N2 A2 _ _. apply wp_ret. pose proof (c_nerr _ _ C1). pose proof (cx_A _ _ C2).
      repeat split; auto; try apply C2; [rewrite gW_none; lia|lia].
  - intros S1 [C1 N1]. apply wp_ret. repeat split; auto; try apply C1; [rewrite gW_none; pose proof (cx_A _ _ C1); lia|constructor].
Qed.
End Top.
