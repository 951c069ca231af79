(** Specifications of the functions of src/with_query.rs and src/statement.rs. *)
From Verif Require Export SafeCopy.
Local Open Scope string_scope.
Local Open Scope list_scope.

Section Fns.
Context {V : env}.
#[local] Instance SpOk_expr_v b : SpOk (wspan src) (pB b) expr.
Proof. intros a H. apply expr_spok; [typeclasses eauto|exact H]. Qed.
#[local] Instance SpOk_stmt_v b : SpOk (wspan src) (pB b) stmt.
Proof. intros a H. apply stmt_spok; [typeclasses eauto|exact H]. Qed.
(** ** Data from standard input *)
Lemma stdin_at_range l d s l' : lwf l -> stdin_at l d s l' -> l_pos l <= fst s /\ fst s <= snd s /\ snd s <= l_pos l'.
Proof.
  intros W A. destruct (stdin_at_adv _ _ _ _ A) as (w0 & A0). pose proof (adv_lwf _ _ _ W A0) as W'. pose proof W as [W1 W2]. destruct W' as [W3 W4].
  destruct A as [w l' A B R|w nl d e s l' A B At F _ _ _|w nl d s l' A B At R F _ _]; destruct A as (A1 & A2 & A3).
  - destruct W2 as [W2 W5], W4 as [W4 W6]. rewrite R, app_nil_r in W4. cbn [fst snd]. rewrite <- A1, W4. lia.
  - apply at_vspan in At as Hv. destruct At as (p & q & _ & P1 & P2). rewrite !blen_app in A3. cbn in A3. lia.
  - destruct At as (p & q & _ & P1 & P2). rewrite !blen_app in A3. lia.
Qed.
Lemma stdin_ok S : wf S -> s_peek (g_st S) = None ->
  match p_stdin (g_st S) with
  | XOk (d, s) st' => compat (mkG st' (g_log S)) -> cx S (mkG st' (g_log S)) /\ m (mkG st' (g_log S)) + b2n (negb (is_eof (tk S))) <= m S /\
       (wat_span src s d /\ stdin_block src d s) /\ s_peek st' = None
  | XPanic w => pan w
  | XFuel => False
  end.
Proof.
  intros Hw Hp. assert (Nx : forall x st', p_stdin (g_st S) = XOk x st' -> compat (mkG st' (g_log S)) -> inside (s_span st') /\ finally (fun _ => lo <= fst (s_span st'))).
  { intros x st' E. eapply inside_next; [exact Hw|]. now apply (exec_moved _ OStdin _ x). }
  destruct S as [st log]. pose proof Hw as [w1 w2 w3 w4 w5 w6 w7 w8 w9 w10 w11]. cbn [g_st g_log] in *. unfold tk, sp in *. cbn [g_st] in *.
  destruct (read_from_stdin_spec _ w1) as (d & s & l' & E & A). unfold p_stdin in *. rewrite E in *.
  pose proof (stdin_at_range _ _ _ _ w1 A) as Rg. assert (Ad : at_span src s d).
  { rewrite <- w2. destruct A; auto. exists (l_src (s_lex st)), []. cbn. now rewrite app_nil_r, Nat.add_0_r. }
  assert (Sb : stdin_block src d s) by (rewrite <- w2; eapply stdin_at_block; eauto).
  apply stdin_at_adv in A as (w & A). pose proof (adv_lwf _ _ _ w1 A) as W'. pose proof (adv_length _ _ _ A) as Ln.
  destruct A as (A1 & A2 & A3). rewrite Hp in *.
  unfold p_next in *. cbn [s_peek s_lex] in *.
  assert (Es : l_src l' = src) by (rewrite A1; exact w2). pose proof (lex_step _ W' Es) as L. destruct (next_token l') as [[t2 s2] l2|w']; [|exact L].
  destruct L as (L1 & L2 & L3 & L4 & L5 & L6). pose proof (fst_le_snd _ _ L5). pose proof (fst_le_snd _ _ (tok_at_0 _ _ w5)). apply gap_at_le in L3. intros K. destruct (Nx _ _ eq_refl K) as [In Lo]. cbn in In, Lo.
  assert (Id : inside s). { unfold inside, finally in *. destruct fin_issues; [|auto]. split; [lia|left; lia]. }
  split; [|split; [unfold m, tk; cbn; rewrite Hp; cbn; lia|split; [split; [split; [exact Ad|exact Id]|exact Sb]|reflexivity]]].
  constructor; cbn; auto; unfold sp; cbn; try lia.
  - constructor; unfold tk, sp; cbn; auto; [now apply tok_at_is|]. destruct w9 as (q & M1 & M2). exists q. split; [auto|lia].
  - unfold m. cbn. rewrite Hp. lia.
  - exists []. now rewrite app_nil_r.
Qed.
Lemma step_stdin U (k : text * span -> prog U) Q E F S : cx E S -> s_peek (g_st S) = None ->
  (forall d s S', cx E S' -> cx S S' -> m S' + b2n (negb (is_eof (tk S))) <= m S -> AA S <= AA S' -> wat_span src s d /\ stdin_block src d s -> s_peek (g_st S') = None ->
     wp (k (d, s)) Q F S') ->
  wp (bind (perf OStdin) k) Q F S.
Proof.
  intros C Hp H. pose proof (stdin_ok _ (c_wf _ _ C) Hp) as X. apply wp_op; cbn [exec].
  - intros [d s] st' E1. rewrite E1 in X. apply wp_compat. intros K. destruct (X K) as (X1 & X2 & X3 & X4). apply H; auto; [eapply cx_trans; eauto|now apply cx_A].
  - intros w E1. now rewrite E1 in X.
  - now destruct (p_stdin (g_st S)).
Qed.
(** ** The delimiter *)
Definition setd (S : gst) (d : tok) : gst :=
  let st := g_st S in
  mkG (mkPst (s_lex st) (s_tok st) (s_span st) (s_peek st) (s_isrc st) (s_issues st)
             (s_arg st) d (s_opts st) (s_permit st)) (g_log S).
Lemma setd_wf S d : wf S -> wf (setd S d).
Proof. intros []. constructor; auto. Qed.
Lemma setd_id S : setd S (s_delim (g_st S)) = S.
Proof. now destruct S as [[] l]. Qed.
Lemma setd_setd S d d' : setd (setd S d) d' = setd S d'.
Proof. now destruct S as [[] l]. Qed.
Lemma setd_cx E S d d' : cx (setd E d) S -> cx (setd E d') (setd S d').
Proof. intros [H1 H2 H3 H4 H5 H6 H7]. constructor; auto. now apply setd_wf. Qed.
Lemma step_setdelim U d (k : unit -> prog U) Q F S : wp (k tt) Q F (setd S d) -> wp (bind (perf (OSetDelim d)) k) Q F S.
Proof. destruct S as [[] l]. exact id. Qed.

(** [loop_acc] never fails. *)
Lemma loop_acc_noerr X n (body : X -> prog (X * ctl)) : forall x S S', rung (loop_acc n body x) S <> GErr S'.
Proof.
  induction n as [|n IH]; intros x S S'; cbn [loop_acc rung]; [discriminate|].
  destruct (rung (body x) S) as [[x' []] S1|S1| |]; cbn [rung]; try discriminate. apply IH.
Qed.
Lemma wp_and T (p : prog T) (Q R : T -> gst -> Prop) F S : wp p Q F S -> rets R p -> wp p (fun a S' => Q a S' /\ R a S') F S.
Proof. intros H1 H2. specialize (H2 S). unfold wp in *. destruct (rung p S); auto. Qed.


Lemma ok_block (l : list stmt) : nb = true -> Forall (ok nb) (atoms l) -> Forall (ok nb) (atoms (mkBlock l)).
Proof. intros H1 H2. destruct l; [|exact H2]. constructor; [|constructor]. cbn. auto. Qed.
Lemma gW_block (l : list stmt) : gW (mkBlock l) = gW l.
Proof. destruct l; [|reflexivity]. unfold gW, atoms. cbn. rewrite wt_empty. reflexivity. Qed.

Section R.
Variable r : recs.
Context {K : recs_ok r} {KC : recs_cp r}.

Lemma skip_tokens_spec n w : is_eof w = false -> spec false n 0 d0 d0 gW (skip_tokens n w).
Proof.
  intros H. unfold skip_tokens. change 0 with (@gW V unit _ tt). eapply loop0_spec; [|ntac|constructor].
  intros x _. change (gW x) with 0. start.
  eapply step0; [eapply skip_token_spec; exact H|eassumption|bnd|intro_step]. destruct a; norm; go.
Qed.
Lemma statement_list_inner_spec : spec nb (r_n r - 1) 0 d0 eok gW (parse_statement_list_inner r).
Proof.
  unfold parse_statement_list_inner. change 0 with (@gW V (list stmt) _ []). eapply loop_acc_spec; [|lia|constructor].
  intros l Hl. start. eapply step0; [apply (skip_tokens_spec (r_n r)); reflexivity|eassumption|bnd|intro_step].
  apply wp_bind. eapply wp_conseq; [eapply wp_and; [apply (@k_stmt _ r K); [apply C0|lia]|apply (@k_cp r KC)]| |intros S'; now apply fpost_trans].
  intros v S1 [(C1 & M1 & N1 & A1 & O1) Cp]. assert (C2 : cx S S1) by (eapply cx_trans; eauto). pose proof (c_nerr _ _ C2).
  unfold d0 in *. destruct v as [v|].
  2: { apply wp_ret. norm. split; [assumption|]. unfold dctl, ectl; cbn [snd]. split; [lia|]. split; [lia|]. split; [gwx; gwl|okg]. }
  rewrite gW_some in A1. change (Forall (ok nb) (atoms v)) in O1.
  apply step_token. destruct (tok_eqb (tk S1) TSemiColon) eqn:Es; cbn [negb].
  2: { apply wp_ret. split; [assumption|]. unfold dctl, ectl; cbn [snd]. split; [lia|]. split; [lia|]. split; [gwx; gwl|okg]. }
  destruct (reads_from_stdin v) eqn:Ev.
  - eapply step_stdin; [exact C2|now apply Cp|]. intros d s S2 C3 C3' M3 A3 T3 _. rewrite (tok_eqb_live _ _ Es eq_refl) in M3. cbn in M3.
    apply wp_ret. pose proof (c_nerr _ _ C3). split; [assumption|]. unfold dctl, ectl; cbn [snd]. split; [lia|]. split; [lia|].
    assert (X : Forall (ok nb) (atoms (SStdin (mkStdin d s)))) by (constructor; [exact T3|constructor; [eapply wat_wspan, T3|constructor]]).
    assert (X' : gW (SStdin (mkStdin d s)) = 0) by (change (wt (AText d s) + (wt (ASpan s) + 0) = 0); now rewrite wt_text, wt_span).
    clear T3. set (sd := SStdin (mkStdin d s)) in *. clearbody sd. split; [|okg]. gwx. gwl.
  - eapply step0; [apply (consume_token_spec (Datatypes.S (m S1))); reflexivity|exact C2|bnd|intro_step].
    apply wp_ret. pose proof (c_nerr _ _ C3). split; [assumption|]. unfold dctl, ectl; cbn [snd]. split; [lia|]. split; [lia|]. split; [gwx; gwl|okg].
Qed.
Lemma statement_list_spec : spec nb (r_n r - 1) 0 d0 eok gW (parse_statement_list r).
Proof.
  intros S Hw Hm. unfold parse_statement_list. apply step_delim, step_setdelim.
  set (old := s_delim (g_st S)). set (S0 := setd S TSemiColon).
  pose proof (statement_list_inner_spec S0 (setd_wf _ _ Hw) Hm) as H.
  assert (H' : wp (parse_statement_list_inner r) (post S0 nb 0 d0 eok gW) (fun _ => False) S0).
  { unfold wp in *. pose proof (fun S' => loop_acc_noerr _ _ _ _ S0 S' : rung (parse_statement_list_inner r) S0 <> GErr S') as Ne.
    destruct (rung (parse_statement_list_inner r) S0) as [a S1|S1|w|]; auto. now destruct (Ne S1). }
  apply wp_bind. eapply wp_conseq; [exact H'| |intros ? []]. clear H H'. intros a S1 (C1 & M1 & N1 & A1 & O1).
  apply step_setdelim. apply wp_ret. split.
  - unfold S0 in C1. apply setd_cx with (d' := old) in C1. unfold old in C1 at 1. now rewrite setd_id in C1.
  - repeat split; auto.
Qed.
Lemma statement_list_local_spec : spec nb (r_n r - 1) 0 d0 d0 gW (parse_statement_list_local r).
Proof.
  intros S Hw Hm. unfold parse_statement_list_local. apply wp_bind. eapply wp_conseq; [now apply statement_list_spec| |auto].
  intros [l []] S1 (C1 & M1 & N1 & A1 & O1); unfold eok in N1; cbn [snd] in N1; norm.
  - apply wp_ret. apply post0; auto. lia.
  - apply wp_fail; auto. lia.
Qed.
Hint Resolve statement_list_local_spec : spec.
Lemma exception_handlers_spec : spec false (r_n r) 0 d0 d0 gW (parse_exception_handlers r).
Proof.
  unfold parse_exception_handlers. change 0 with (@gW V unit _ tt). eapply loop0_spec; [|ntac|constructor].
  intros x _. change (gW x) with 0. start. go.
Qed.
Hint Resolve exception_handlers_spec : spec.
Lemma parse_block_wp S : wf S -> m S < r_n r -> wp (parse_block r) (fun a S' => post S nb 0 d1 d0 gW a S' /\ nb = true) (fpost S) S.
Proof.
  intros Hw Hm. pose proof (cx_refl _ Hw) as C. unfold parse_block.
  eapply (consume_keyword_word _ (r_n r)); [eassumption|lia|]. intros a S1 C1 M1 A1 O1 B. apply nb_begin in B. norm.
  eapply (step0 _ _ _ nb (r_n r - 1) 0); [eapply recovered_acc_spec, statement_list_spec|eassumption|bnd|intro_step].
  eapply step0; [sspec|eassumption|bnd|intro_step].
  eapply (step0_inl _ _ _ false 0 d0 gW); [eassumption|intros; go|intro_step].
  eapply step0; [sspec|eassumption|bnd|intro_step]. apply wp_ret. split; [fin|exact B].
Qed.
Ltac ctl_fin := apply wp_ret; norm; split; [assumption|];
  match goal with C : cx ?E ?S |- m ?S + _ <= m ?E /\ _ => pose proof (c_nerr _ _ C) end;
  unfold dctl, ectl; cbn [snd]; repeat split; try lia; try (gwx; gwl); try okg.
Lemma parse_if_condition_spec s : Forall (ok false) (atoms s) -> spec nb (r_n r - 1) 0 d1 d0 gW (parse_if_condition r s).
Proof.
  intros Hs. unfold parse_if_condition. start. assert (gW s = 0) by (destruct s; gwx; reflexivity). apply (ok_mono nb) in Hs. go.
Qed.
Lemma parse_else_spec : spec nb (r_n r) 0 d0 eok gW (parse_else r).
Proof.
  intros S Hw Hm. unfold parse_else. apply wp_try. pose proof (cx_refl _ Hw) as C.
  assert (X : wp (e <- skip_keyword "ELSE" ;;
       match e with
       | Some s => l <- parse_statement_list_local r ;; Ret (Some (s, l))
       | None => Ret None
       end) (post S nb 0 d0 d0 gW) (fpost S) S) by go.
  eapply wp_conseq; [exact X| |].
  - intros a S1 (C1 & M1 & N1 & A1 & O1). apply wp_ret. split; [exact C1|]. unfold eok, d0 in *. cbn [snd]. repeat split; try lia; [|okg].
    rewrite gW_pair. change (gW true) with 0. lia.
  - intros S1 [C1 L1]. apply wp_ret. split; [exact C1|]. pose proof (c_m _ _ C1). pose proof (cx_A _ _ C1). unfold eok, d0 in *. cbn [snd]. repeat split; try lia; [|okg].
    rewrite gW_pair, gW_none. change (gW false) with 0. lia.
Qed.
(** A list of branches followed by an ELSE. *)
Lemma branches_spec X Y (IX : Atoms X) (IY : Atoms Y) (f : X -> Y) (p : prog (X * bool)) k :
  (forall x, atoms (f x) = atoms x) ->
  (forall x ok, k (x, ok) = if ok : bool then '(e, ok) <- parse_else r ;; Ret ((f x, e), ok) else Ret ((f x, None), false)) ->
  spec nb (r_n r - 1) 0 d0 eok gW p ->
  spec nb (r_n r - 1) 0 d0 eok gW (bind p k).
Proof.
  intros Hf Hk Hp S Hw Hm. apply wp_bind. eapply wp_conseq; [apply Hp; auto| |auto].
  assert (G : forall x, gW (f x) = gW x) by (intros; unfold gW; now rewrite Hf).
  intros [x []] S1 (C1 & M1 & N1 & A1 & O1); rewrite Hk; norm; unfold eok, d0 in *; cbn [snd] in *.
  - apply wp_bind. pose proof (c_m _ _ C1) as L1. eapply wp_conseq; [apply parse_else_spec; [apply C1|lia]| |intros S'; now apply fpost_trans].
    intros [e b] S2 (C2 & M2 & N2 & A2 & O2); norm. unfold eok, d0 in *. cbn [snd] in *. apply wp_ret. split; [eapply cx_trans; eauto|]. cbn [snd].
    repeat split; try lia; [|rewrite <- Hf in H; okg].
    rewrite !gW_pair in *. rewrite G. change (gW b) with 0 in *. lia.
  - apply wp_ret. split; [exact C1|]. cbn [snd]. repeat split; try lia; [|rewrite <- Hf in H; okg].
    rewrite !gW_pair in *. rewrite G, gW_none. change (gW false) with 0 in *. lia.
Qed.
Lemma parse_if_spec : spec nb (r_n r) 0 d1 d0 gW (parse_if r).
Proof.
  unfold parse_if. start. eapply step0; [sspec|eassumption|bnd|intro_step].
  eapply (step0 _ _ _ nb (r_n r - 1) 0); [eapply recovered_acc_spec|eassumption|bnd|intro_step; destruct a0 as [? ?]; norm; go].
  eapply branches_spec with (f := fun x => fst x); [intros [l b]; cbn; now rewrite app_nil_r|intros [l b] ok; reflexivity|].
  change 0 with (@gW V (list (if_condition expr stmt) * bool) _ ([], true)).
  eapply loop_acc_spec; [|lia|constructor].
  clear - K KC. intros [l []] Hl; norm.
  - start. eapply step0; [apply parse_if_condition_spec; constructor|eassumption|bnd|intro_step]. ctl_fin.
  - start. eapply step0; [sspec|eassumption|bnd|intro_step]. destruct a; norm; [|ctl_fin].
    eapply step0; [apply parse_if_condition_spec; okg|eassumption|bnd|intro_step]. ctl_fin.
Qed.

(** ** with_query.rs *)
(** A recovered block has an Error. *)
Definition enone {T} (a : option T) : nat := match a with None => 1 | Some _ => 0 end.
Lemma recovered_none T (I : Atoms T) b N name e (p : prog (option T)) :
  spec b N 0 d0 enone gopt p -> spec b N 0 d0 enone gopt (recovered None name e p).
Proof.
  intros Hp S Hw Hm. unfold recovered. apply wp_bind. apply wp_try.
  assert (G : forall a S1, cx S S1 -> nerr S + enone a <= nerr S1 -> AA S + gopt a <= AA S1 + 0 -> Forall (ok b) (atoms a) ->
     wp (bind (recovered_end name e) (fun _ => Ret a)) (post S b 0 d0 enone gopt) (fpost S) S1).
  { intros a S1 C1 N1 A1 O1. eapply step_recovered_end; [exact C1|]. intros S2 C2 C3 M2 A2 _. apply wp_ret.
    pose proof (c_m _ _ C2). pose proof (c_nerr _ _ C3). unfold d0. split; [exact C2|]. repeat split; auto; lia. }
  eapply wp_conseq; [apply Hp; auto| |].
  - intros a S1 (C1 & M1 & N1 & A1 & O1). apply wp_ret. now apply G.
  - intros S1 [C1 L1]. apply step_recover; auto. intros S2 C2 C3 M2 A2 _. apply wp_ret. pose proof (c_nerr _ _ C3).
    apply G; auto; [cbn [enone]; lia| |constructor]. pose proof (cx_A_err _ _ C1 L1). cbn [gopt]. lia.
Qed.
(** The atoms of a statement in a WITH query, with what is reported if it is no data statement. *)
Definition Atoms_wb (s : span) : Atoms stmt := fun x => atoms x ++ (if is_data x then [] else [AFeature FWithStatement s]).
Definition Atoms_wm : Atoms stmt := fun x => atoms x ++ (if is_data x then [] else used FWithMain (spn x)).
Lemma wb_W s x : W (@atoms _ (Atoms_wb s) x) = W (atoms x).
Proof.
  unfold Atoms_wb, atoms at 1. rewrite W_app. destruct (is_data x); [change (W []) with 0; lia|].
  change [AFeature FWithStatement s] with (used FWithStatement (SSome s)). rewrite W_used. lia. Qed.
Lemma wm_W x : W (@atoms _ Atoms_wm x) = W (atoms x).
Proof. unfold Atoms_wm, atoms at 1. rewrite W_app. destruct (is_data x); [change (W []) with 0|rewrite W_used]; lia. Qed.
Lemma parse_with_block_spec : (nb = true -> pan PSpanOfBlock) -> spec nb (r_n r) 0 d1 d0 gW (parse_with_block r).
Proof.
  intros Hp. unfold parse_with_block. start. do 3 (eapply step0; [sspec|eassumption|bnd|intro_step]).
  eapply (step_ _ _ _ nb (r_n r - 1) 0); [eapply recovered_none|eassumption|bnd|].
  { clear - K KC. start. eapply step0; [apply (@k_stmt _ r K)|eassumption|bnd|intro_step]. destruct a; norm.
    - apply wp_ret. pose proof (c_nerr _ _ C0). split; [assumption|]. repeat split; auto; cbn [enone gopt]; lia.
    - eapply expected0; [eassumption|intros]. apply wp_ret. split; [assumption|]. unfold d0. repeat split; cbn [enone gopt]; [lia|lia|lia|constructor]. }
  intros a2 S4 C4 _ M4 N4 A4 O4.
  eapply step_; [apply (consume_token_spec (r_n r)); reflexivity|eassumption|unfold d0 in *; lia|]. intros a3 S5 C5 C5' M5 _ A5 O5. norm.
  eapply (step0_inl _ _ (Atoms_wb a0) nb (gopt a2) d0 (@gW _ _ (Atoms_wb a0))); [eassumption| |].
  2:{ intros x Sx Cx Mx Ax Ox. unfold gW in Ax. rewrite wb_W in Ax. fold (gW x) in Ax. apply Forall_app in Ox as [Ox Ox']. norm.
      apply wp_ret. apply post0; [assumption|mgoal| |].
      - change (AA S + W (((((atoms a ++ atoms a0) ++ atoms a1) ++ atoms x) ++ atoms a3) ++ (if is_data x then [] else [AFeature FWithStatement a0])) <= AA Sx + 0).
        rewrite !W_app. refold. replace (W (if is_data x then [] else [AFeature FWithStatement a0])) with 0
          by (destruct (is_data x); [reflexivity|cbn; now rewrite wt_feature]). gwx. lia.
      - change (Forall (ok nb) (((((atoms a ++ atoms a0) ++ atoms a1) ++ atoms x) ++ atoms a3) ++ (if is_data x then [] else [AFeature FWithStatement a0]))).
        apply ok_app; [okg|exact Ox']. }
  assert (G : forall x S6, cx S5 S6 -> AA S5 + gW x <= AA S6 + gopt a2 -> Forall (ok nb) (atoms x) -> is_data x = true \/ 0 < nerr S6 ->
    wp (Ret x) (@post V _ (Atoms_wb a0) S5 nb (gopt a2) d0 d0 (@gW _ _ (Atoms_wb a0))) (fpost S5) S6).
  { intros x S6 C6 A6 O6 D6. apply wp_compat. intros Kc. apply wp_ret. apply post0; [assumption|pose proof (c_m _ _ C6); mgoal| |].
    - unfold gW. rewrite wb_W. exact A6.
    - apply ok_app; [exact O6|]. destruct (is_data x); [constructor|]. constructor; [|constructor]. right.
      destruct D6 as [D6|D6]; [discriminate|]. exact (finally_error _ Kc D6). }
  intros C6. destruct a2 as [v|]; norm; cbn [gopt enone] in *.
  - change (with_allowed v) with (is_data v). destruct (is_data v) eqn:Ed.
    + change (bind (Ret tt) ?f) with (f tt). cbv beta. apply G; auto; lia.
    + eapply step_err_at with (b := nb); [eassumption|now apply spv_stmt|apply stmt_some|reflexivity|exact Hp|intros].
      apply G; auto; [lia|]. right. lia.
  - apply G; auto; [change (gW (SBegin a1)) with (gW a1); gwx; lia|okg|]. right. pose proof (c_nerr _ _ C5'). lia.
Qed.
Lemma parse_with_query_spec : spec nb (r_n r) 0 d1 d0 gW (parse_with_query r).
Proof.
  unfold parse_with_query. start. eapply (consume_keyword_word _ (r_n r)); [eassumption|lia|]. intros a S1 C1 M1 A1 O1 B.
  assert (Hp : nb = true -> pan PSpanOfBlock) by (intros; now apply pan_block). norm.
  eapply (step0 _ _ _ nb (r_n r)); [eapply sep_list_spec; [now apply parse_with_block_spec|ntac]|eassumption|bnd|intro_step].
  eapply (step0 _ _ _ nb (r_n r - 1)); [apply (@k_stmt _ r K)|eassumption|bnd|intro_step].
  eapply (step0_inl _ _ Atoms_wm nb (gW a1) d0 (@gW _ _ Atoms_wm)); [eassumption| |].
  { assert (G : forall x S6, cx S2 S6 -> AA S2 + gW x <= AA S6 + gW a1 -> Forall (ok nb) (atoms x) -> Forall (ok nb) (if is_data x then [] else used FWithMain (spn x)) ->
      wp (Ret x) (@post V _ Atoms_wm S2 nb (gW a1) d0 d0 (@gW _ _ Atoms_wm)) (fpost S2) S6).
    { intros x S6 C6 A6 O6 D6. apply wp_ret. apply post0; [assumption|pose proof (c_m _ _ C6); mgoal|unfold gW; rewrite wm_W; exact A6|].
      apply ok_app; assumption. }
    intros C5. destruct a1 as [v|]; norm; [|go]. rewrite gW_some in *. change (with_allowed v) with (is_data v).
    destruct (is_data v) eqn:Ed.
    - change (bind (Ret tt) ?f) with (f tt). cbv beta. apply G; auto; try lia. rewrite Ed. constructor.
    - change (err_at ?x ?y) with (if false then Ret tt else err_at x y).
      eapply (step_feature_at _ nb FWithMain); [eassumption|now apply spv_stmt|apply stmt_some|reflexivity|reflexivity|fmsg|exact Hp|intros].
      apply G; auto; try lia. rewrite Ed. auto. }
  intros x Sx Cx Mx Ax Ox. unfold gW in Ax at 1. rewrite wm_W in Ax. fold (gW x) in Ax. apply Forall_app in Ox as [Ox Ox'].
  norm. cbv zeta. eapply step_dialect; [eassumption|].
  eapply (step_feature_at _ nb FWith); [eassumption| | |reflexivity|reflexivity|fmsg|exact Hp|intros].
  + change (spv nb (jn (jn (spn a) (spn a0)) (spn x))).
    repeat apply spv_jn; (eapply spv_of; [typeclasses eauto|first [eassumption|okg]]).
  + some_.
  + apply wp_ret. apply post0; [assumption|mgoal| |].
    * change (AA S + W ((((atoms a ++ atoms a0) ++ atoms x) ++ (if is_data x then [] else used FWithMain (spn x))) ++ used FWith (spn (mkWithQuery a a0 x))) <= AA S' + 0).
      rewrite !W_app, W_used. replace (W (if is_data x then [] else used FWithMain (spn x))) with 0
        by (destruct (is_data x); [reflexivity|now rewrite W_used]). refold. gwx. lia.
    * change (Forall (ok nb) ((((atoms a ++ atoms a0) ++ atoms x) ++ (if is_data x then [] else used FWithMain (spn x))) ++ used FWith (spn (mkWithQuery a a0 x)))).
      apply ok_app; [|auto]. apply ok_app; [okg|exact Ox'].
Qed.

(** ** statement.rs *)
Lemma parse_set_spec : spec false (r_n r) 0 d1 d0 gW (parse_set r).
Proof.
  unfold parse_set. start. eapply step0; [sspec|eassumption|bnd|intro_step].
  eapply step0; [eapply (sep_list_spec _ _ false (r_n r)) with (d := d1); [start; go|ntac]|eassumption|bnd|intro_step]. go.
Qed.
Lemma parse_return_spec : spec false (r_n r) 0 d1 d0 gW (parse_return r).
Proof. unfold parse_return. start. go. Qed.
Lemma parse_signal_set_spec : spec false (r_n r) 0 d1 d0 gW (parse_signal_set r).
Proof.
  unfold parse_signal_set. start. apply step_token.
  eapply (step0_inl _ _ _ false 0 d1 gW); [eassumption|intros; destr (kw_assoc signal_names (tk S)); [destruct p|]; go|intro_step]. go.
Qed.
Hint Resolve parse_signal_set_spec : spec.
Lemma parse_signal_spec : spec false (r_n r) 0 d1 d0 gW (parse_signal r).
Proof. unfold parse_signal. start. go. Qed.
Lemma parse_do_spec : spec nb (r_n r) 0 d1 d0 gW (parse_do r).
Proof.
  unfold parse_do. start. do 2 (eapply step0; [sspec|eassumption|bnd|intro_step]).
  apply wp_bind. eapply wp_conseq; [apply parse_block_wp; [apply C1|lia]| |intros S'; now apply fpost_trans].
  intros b S2 [(C2 & M2 & N2 & A2 & O2) B]. assert (C3 : cx S S2) by (eapply cx_trans; eauto). unfold d1 in *.
  eapply step0; [sspec|eassumption|bnd|intro_step]. apply wp_ret. apply post0; [assumption|mgoal| |].
  - change (gW (SDo (mkBlock b))) with (gW (mkBlock b)). rewrite gW_block. lia.
  - change (Forall (ok nb) (atoms (mkBlock b))). now apply ok_block.
Qed.
Lemma parse_when_statement_spec : spec nb (r_n r) 0 d1 d0 gW (parse_when_statement r).
Proof. unfold parse_when_statement. start. go. Qed.
Lemma parse_case_statement_spec : spec nb (r_n r) 0 d1 d0 gW (parse_case_statement r).
Proof.
  unfold parse_case_statement. start. eapply step0; [sspec|eassumption|bnd|intro_step]. apply step_token.
  eapply (step0_inl _ _ _ false 0 d0 gW); [eassumption|intros; go|intro_step].
  eapply (step0 _ _ _ nb (r_n r - 1) 0); [eapply recovered_acc_spec|eassumption|bnd|intro_step; destruct a1 as [? ?]; norm; go].
  eapply branches_spec with (f := fun x => x); [reflexivity|reflexivity|].
  change 0 with (@gW V (list (when_statement expr stmt)) _ []). eapply loop_acc_spec; [|lia|constructor].
  clear - K KC. intros l Hl. start. eapply step0; [apply parse_when_statement_spec|eassumption|bnd|intro_step]. apply step_token.
  destruct (negb _); ctl_fin.
Qed.
Lemma parse_copy_statement_spec n : spec false n 0 d1 d0 gW (parse_copy_statement n).
Proof.
  unfold parse_copy_statement. start. do 3 (eapply step0; [sspec|eassumption|bnd|intro_step]). apply step_token.
  eapply (step0_inl _ _ _ false 0 d0 gW); [eassumption|intros; go|intro_step]. go.
Qed.
Hint Resolve parse_with_query_spec parse_set_spec parse_return_spec parse_signal_spec parse_do_spec parse_case_statement_spec parse_copy_statement_spec parse_if_spec : spec.
Lemma pmap_spec T (I : Atoms T) N d (f : T -> stmt) (p : prog T) :
  (forall a, atoms (f a) = atoms a) -> spec nb N 0 d d0 gW p -> spec nb N 0 d0 d0 gW (pmap f p).
Proof.
  intros Hf Hp. unfold pmap. start. eapply step0; [exact Hp|eassumption|bnd|intro_step]. apply wp_ret.
  apply post0; [assumption|mgoal|rewrite gW_some; unfold gW in *; rewrite Hf; lia|].
  change (Forall (ok nb) (atoms (f a))). now rewrite Hf.
Qed.
Lemma spec_b T (I : Atoms T) N i d e g (p : prog T) : spec false N i d e g p -> spec nb N i d e g p.
Proof.
  intros H S Hw Hm. eapply wp_conseq; [now apply H| |auto]. intros a S' (H1 & H2 & H3 & H4 & H5). repeat split; auto; try apply H1. now apply ok_mono.
Qed.
Lemma pmap_block_spec : spec nb (r_n r) 0 d0 d0 gW (pmap (fun b => SBlock (mkBlock b)) (parse_block r)).
Proof.
  unfold pmap. start. apply wp_bind. eapply wp_conseq; [apply parse_block_wp; [apply C|lia]| |intros S'; now apply fpost_trans].
  intros b S2 [(C2 & M2 & N2 & A2 & O2) B]. apply wp_ret. unfold d1 in *. apply post0; [assumption|mgoal| |].
  - rewrite gW_some. change (gW (SBlock (mkBlock b))) with (gW (mkBlock b)). rewrite gW_block. lia.
  - change (Forall (ok nb) (atoms (mkBlock b))). now apply ok_block.
Qed.
Lemma parse_statement_spec : spec nb (r_n r) 0 d0 d0 gW (parse_statement r).
Proof.
  start. unfold parse_statement. apply step_token.
  assert (P : forall T (I : Atoms T) d (f : T -> stmt) (p : prog T), (forall a, atoms (f a) = atoms a) -> spec nb (r_n r) 0 d d0 gW p ->
    wp (pmap f p) (post S nb 0 d0 d0 gW) (fpost S) S).
  { intros T I d f p Hf Hp. now apply (pmap_spec _ _ (r_n r) d f p). }
  assert (R : wp (Ret None) (post S nb 0 d0 d0 gW) (fpost S) S) by go.
  repeat match goal with |- wp (if ?x then _ else _) _ _ _ => destruct x; [|] end;
  try match goal with |- wp (bind (perf OPermit) _) _ _ _ => apply step_permit; destruct (s_permit _) end;
  try exact R; try (now apply pmap_block_spec).
  all: try (eapply P; [intros; autorewrite with at_ex; reflexivity|first [solve [eauto with spec]|apply spec_b; solve [eauto with spec]]]).
Qed.
End R.
End Fns.
