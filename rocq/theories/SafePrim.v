(** The program logic, continued: primitive effects, [Parser] methods, loops, recovery. *)
From Verif Require Export SafeLogic.
Local Open Scope string_scope.
Local Open Scope list_scope.

#[export] Instance Atoms_sum A B (_ : Atoms A) (_ : Atoms B) : Atoms (A + B) :=
  fun x => match x with inl a => atoms a | inr b => atoms b end.
#[export] Instance Atoms_ctl : Atoms ctl := fun _ => [].
#[export] Instance Atoms_dialect : Atoms dialect := fun _ => [].

(** ** Token tests *)
Lemma is_kw_inv t k : is_kw t k = true -> exists v, t = TIdent v (KW k).
Proof.
  destruct t; cbn; try discriminate. destruct k0 as [| |s]; cbn; try discriminate.
  intros H. apply String.eqb_eq in H as ->. eauto.
Qed.
Lemma is_kw_live t k : is_kw t k = true -> is_eof t = false.
Proof. intros H. apply is_kw_inv in H as [v ->]. reflexivity. Qed.
Lemma kw_assoc_kw A (tbl : list (string * A)) t k v : kw_assoc tbl t = Some (k, v) -> is_kw t k = true.
Proof.
  induction tbl as [|[k' v'] tbl IH]; cbn; [discriminate|]. destruct (is_kw t k') eqn:E; [|auto].
  intros H. injection H as -> ->. exact E.
Qed.
Lemma kw_assoc_live A (tbl : list (string * A)) t x : kw_assoc tbl t = Some x -> is_eof t = false.
Proof. destruct x as [k v]. intros H. apply kw_assoc_kw in H. eapply is_kw_live; eauto. Qed.
Lemma tok_eqb_eof w : tok_eqb TEof w = is_eof w.
Proof. destruct w; reflexivity. Qed.
Lemma tok_eqb_live t w : tok_eqb t w = true -> is_eof w = false -> is_eof t = false.
Proof. destruct t; try reflexivity. rewrite tok_eqb_eof. congruence. Qed.
Lemma string_token_live t v : string_token t = Some v -> is_eof t = false.
Proof. destruct t; easy. Qed.

Section Prim.
Context {V : env}.
(** ** Messages that may be reported anywhere *)
Definition plain (m : text) : bool := plain_in (o_dialect opts) m.

Lemma cx_wf E S : cx E S -> wf S. Proof. apply c_wf. Qed.
Lemma ok_span b s : wspan src s -> Forall (ok b) (atoms s).
Proof. intros H. constructor; [exact H|constructor]. Qed.
Lemma span_ok b (s : span) : Forall (ok b) (atoms s) -> wspan src s.
Proof. intros H. inversion H. assumption. Qed.
Lemma ok_join b x y : Forall (ok b) (atoms x) -> Forall (ok b) (atoms y) -> Forall (ok b) (atoms (join x y)).
Proof. intros H1 H2. apply ok_span, wspan_join; eapply span_ok; eauto. Qed.

(** *** Reading the state *)
Lemma step_token U (k : tok -> prog U) Q F S : wp (k (tk S)) Q F S -> wp (bind token k) Q F S.
Proof. destruct S. exact id. Qed.
Lemma step_span U (k : span -> prog U) Q F S : wp (k (sp S)) Q F S -> wp (bind cur_span k) Q F S.
Proof. destruct S. exact id. Qed.
Lemma step_dialect U (k : dialect -> prog U) Q E F S : cx E S ->
  wp (k (o_dialect opts)) Q F S -> wp (bind dialect_ k) Q F S.
Proof. intros C. destruct S. rewrite <- (w_opts _ _ (c_wf _ _ C)). exact id. Qed.
Lemma step_arguments U (k : arguments -> prog U) Q E F S : cx E S ->
  wp (k (o_arguments opts)) Q F S -> wp (bind (perf OArguments) k) Q F S.
Proof. intros C. destruct S. rewrite <- (w_opts _ _ (c_wf _ _ C)). exact id. Qed.
Lemma step_listhack U (k : bool -> prog U) Q E F S : cx E S ->
  wp (k (o_list_hack opts)) Q F S -> wp (bind (perf OListHack) k) Q F S.
Proof. intros C. destruct S. rewrite <- (w_opts _ _ (c_wf _ _ C)). exact id. Qed.
Lemma step_delim U (k : tok -> prog U) Q F S : wp (k (s_delim (g_st S))) Q F S -> wp (bind (perf ODelim) k) Q F S.
Proof. destruct S. exact id. Qed.
Lemma step_permit U (k : bool -> prog U) Q F S : wp (k (s_permit (g_st S))) Q F S -> wp (bind (perf OPermit) k) Q F S.
Proof. destruct S. exact id. Qed.
(** The mode is changed; it is restored, or an Error has been reported. *)
Definition setp (S : gst) (x : bool) : gst :=
  let st := g_st S in
  mkG (mkPst (s_lex st) (s_tok st) (s_span st) (s_peek st) (s_isrc st) (s_issues st) (s_arg st) (s_delim st) (s_opts st) x) (g_log S).
Lemma setp_wf S x : wf S -> wf (setp S x).
Proof. intros []. constructor; auto. Qed.
Lemma setp_err E S x : cx (setp E x) S -> has_word src "TRIGGER" -> nerr E < nerr S -> cx E S.
Proof. intros [H1 H2 H3 H4 H5 H6 H7] HT L. constructor; auto. Qed.
Lemma setp_back E S x : cx (setp E x) S -> cx E (setp S (s_permit (g_st E))).
Proof. intros [H1 H2 H3 H4 H5 H6 H7]. constructor; auto. now apply setp_wf. Qed.
Lemma step_setpermit U x (k : unit -> prog U) Q F S : wp (k tt) Q F (setp S x) -> wp (bind (perf (OSetPermit x)) k) Q F S.
Proof. intros H. apply wp_op; cbn [exec]; try discriminate. intros y st' X. injection X as <- <-. exact H. Qed.

(** *** Consuming tokens *)
Lemma step_next U (k : unit -> prog U) Q E F S : wfx true S -> cx E S \/ cx E S ->
  (forall S', cx E S' -> cx S S' -> m S' + b2n (negb (is_eof (tk S))) <= m S -> AA S <= AA S' ->
     gap_at src (snd (sp S)) (fst (sp S')) -> wp (k tt) Q F S') ->
  wp (bind next k) Q F S.
Proof.
  intros C CE H. apply wp_op.
  - intros x st' E1. cbn in E1. pose proof (next_ok _ C) as N. rewrite E1 in N. apply wp_compat. intros K. destruct (N K) as (N1 & N2 & N3 & N4 & N5).
    destruct x. apply H; auto; [|now apply cx_A]. destruct CE; eapply cx_trans; eauto.
  - intros w E1. cbn in E1. pose proof (next_ok _ C) as N. now rewrite E1 in N.
  - cbn. pose proof (next_ok _ C) as N. now destruct (p_next (g_st S)).
Qed.
Lemma step_consume U (k : span -> prog U) Q E F S : cx E S ->
  (forall S', cx E S' -> cx S S' -> m S' + b2n (negb (is_eof (tk S))) <= m S -> AA S <= AA S' ->
     gap_at src (snd (sp S)) (fst (sp S')) -> wp (k (sp S)) Q F S') ->
  wp (bind consume k) Q F S.
Proof.
  intros C H. unfold consume.
  change (bind (bind cur_span _) k) with (bind cur_span (fun s => bind next (fun _ => k s))).
  apply step_span. eapply step_next; [apply wf_late, C|left; exact C|]. auto.
Qed.
Lemma step_peek U (k : tok -> prog U) Q E F S : cx E S ->
  (forall t S', cx E S' -> cx S S' -> tk S' = tk S -> sp S' = sp S -> m S' <= m S -> AA S <= AA S' -> wp (k t) Q F S') ->
  wp (bind peek k) Q F S.
Proof.
  intros C H. pose proof (c_wf _ _ C) as Hw. apply wp_op.
  - intros x st' E1. cbn in E1.
    assert (G : cx S (mkG st' (g_log S)) /\ s_tok st' = tk S /\ s_span st' = sp S).
    { destruct S as [st log]. destruct Hw as [w1 w2 w3 w4 w5 w6 w7 w8 w9 w10 w11]. unfold p_peek, tk, sp in *. cbn [g_st g_log] in *.
      destruct (s_peek st) as [[t s]|] eqn:Ep.
      - injection E1 as <- <-. split; [|easy]. apply cx_refl. constructor; unfold tk, sp; cbn; rewrite ?Ep; auto.
      - pose proof (lex_step _ w1 w2) as L. destruct (next_token (s_lex st)) as [[t s] l'|w]; [|discriminate].
        destruct L as (L1 & L2 & L3 & L4 & L5 & L6). injection E1 as <- <-. split; [|easy].
        constructor; cbn; auto.
        + constructor; unfold tk, sp; cbn; auto. now rewrite w6.
        + unfold m; cbn; rewrite Ep. lia.
        + exists []. now rewrite app_nil_r. }
    destruct G as (G1 & G2 & G3). apply H; auto; eauto using cx_trans, cx_A; apply G1.
  - intros w E1. cbn in E1. unfold p_peek in E1. destruct (s_peek (g_st S)) as [[? ?]|]; [discriminate|].
    pose proof (lex_step _ (w_lwf _ _ Hw) (w_src _ _ Hw)) as L. destruct (next_token _) as [[? ?] ?|]; [discriminate|congruence].
  - cbn. unfold p_peek. destruct (s_peek _) as [[? ?]|]; [discriminate|]. destruct (next_token _) as [[? ?] ?|]; discriminate.
Qed.

(** *** Issues *)
Lemma frags_ok fr : Forall (fun x : text * span => vspan src (snd x)) fr -> build_frags src fr <> None.
Proof.
  induction 1 as [|[t s] l H _ IH]; cbn; [easy|]. cbn in H. apply vspan_slice in H as [w ->].
  now destruct (build_frags src l).
Qed.
Definition good_msg (l : level) (t : text) (s : span) : Prop :=
  plain t = true \/ (exists v, l = Error /\ t = msg_reserved v /\ at_span src s v /\ reserved v = true) \/
  (exists v, l = Warning /\ t = msg_caps v /\ caps_lint v s) \/
  exists v, t = msg_unquoted v /\ unquoted_lint v s.
Lemma issue_ok S l t s fr : wf S -> vspan src s -> Forall (fun x : text * span => vspan src (snd x)) fr -> good_msg l t s ->
  exists st', p_issue l t s fr (g_st S) = XOk tt st' /\ cx S (mkG st' (g_log S)) /\ m (mkG st' (g_log S)) = m S /\
    nerr S + (match l with Error => 1 | Warning => 0 end) <= nerr (mkG st' (g_log S)) /\ s_tok st' = tk S /\ s_span st' = sp S /\
    (l = Error -> reported t s (s_issues st')) /\ noted t s (s_issues st').
Proof.
  intros H Hs Hf Hp. unfold p_issue. rewrite (w_isrc _ _ H). apply vspan_slice in Hs as [w ->].
  destruct (build_frags src fr) as [frs|] eqn:Ef; [|now apply frags_ok in Ef].
  eexists. split; [reflexivity|]. destruct S as [st log]. cbn.
  assert (L : nerr (mkG st log) + match l with Error => 1 | Warning => 0 end <=
     nerr (mkG (set_issues st (s_issues st ++ [mkIssue l t s w frs])) log)).
  { unfold nerr, nerrs. cbn. rewrite filter_app, app_length. destruct l; cbn; lia. }
  split; [|split; [reflexivity|split; [exact L|split; [easy|split; [easy|]]]]].
  2:{ split; [intros ->|]; (eexists; split; [apply in_or_app; right; left; reflexivity|]; easy). }
  destruct H as [w1 w2 w3 w4 w5 w6 w7 w8 w9 w10 w11]. constructor; auto; cbn [g_st g_log]; try lia.
  - constructor; auto. cbn. apply Forall_app. split; [exact w10|]. constructor; [|constructor]. exact Hp.
  - exists []. now rewrite app_nil_r.
Qed.
Lemma frags_w fr : Forall (fun x : text * span => wspan src (snd x)) fr -> Forall (fun x : text * span => vspan src (snd x)) fr.
Proof. apply Forall_impl. intros x H. apply H. Qed.
Lemma step_issue U l t s fr (k : unit -> prog U) Q E F S : cx E S ->
  wspan src s -> Forall (fun x : text * span => wspan src (snd x)) fr -> good_msg l t s ->
  (forall S', cx E S' -> cx S S' -> m S' <= m S -> nerr S + (match l with Error => 1 | Warning => 0 end) <= nerr S' ->
     AA S <= AA S' -> tk S' = tk S -> sp S' = sp S -> (l = Error -> finally (reported t s)) -> wp (k tt) Q F S') ->
  wp (bind (perf (OIssue l t s fr)) k) Q F S.
Proof.
  intros C Hs Hf Hp H. destruct (issue_ok S l t s fr (c_wf _ _ C) (proj1 Hs) (frags_w _ Hf) Hp) as (st' & E1 & C1 & M1 & N1 & T1 & P1 & R1 & _).
  apply wp_op; cbn [exec]; rewrite E1; try discriminate. intros x st2 X. injection X as <- <-. apply wp_compat. intros K.
  apply H; auto; try (cbn in *; lia); eauto using cx_trans, cx_A. intros El. exact (finally_reported _ _ _ K (R1 El)).
Qed.
Lemma step_err U t s (k : unit -> prog U) Q E F S : cx E S -> wspan src s -> plain (txt t) = true ->
  (forall S', cx E S' -> cx S S' -> m S' <= m S -> nerr S + 1 <= nerr S' -> AA S + winv <= AA S' ->
     tk S' = tk S -> sp S' = sp S -> wp (k tt) Q F S') ->
  wp (bind (err t s) k) Q F S.
Proof.
  intros C Hs Hp H. eapply step_issue; eauto; [now left|]. intros. apply H; auto. apply cx_A_err; auto. lia.
Qed.
(** The same, with what will be known about the issues at the end. *)
Lemma step_err_finally U t s (k : unit -> prog U) Q E F S : cx E S -> wspan src s -> plain (txt t) = true ->
  (finally (reported (txt t) s) -> forall S', cx E S' -> cx S S' -> m S' <= m S -> nerr S + 1 <= nerr S' -> AA S + winv <= AA S' ->
     tk S' = tk S -> sp S' = sp S -> wp (k tt) Q F S') ->
  wp (bind (err t s) k) Q F S.
Proof.
  intros C Hs Hp H. eapply step_issue; eauto; [now left|]. intros. apply H; auto. apply cx_A_err; auto. lia.
Qed.
(** A reserved word. *)
Lemma step_reserved U v s (k : unit -> prog U) Q E F S : cx E S -> wat_span src s v -> reserved v = true ->
  (finally (reported (msg_reserved v) s) -> forall S', cx E S' -> cx S S' -> m S' <= m S -> nerr S + 1 <= nerr S' -> AA S + winv <= AA S' ->
     tk S' = tk S -> sp S' = sp S -> wp (k tt) Q F S') ->
  wp (bind (err_frags (msg_reserved v) s []) k) Q F S.
Proof.
  intros C Hs Hp H. eapply step_issue; eauto; [eapply wat_wspan; eauto|right; left; exists v; destruct Hs; auto|]. intros. apply H; auto. apply cx_A_err; auto. lia.
Qed.
Lemma step_warn U t s (k : unit -> prog U) Q E F S : cx E S -> wspan src s -> plain (txt t) = true ->
  (forall S', cx E S' -> cx S S' -> m S' <= m S -> nerr S <= nerr S' -> AA S <= AA S' ->
     tk S' = tk S -> sp S' = sp S -> wp (k tt) Q F S') ->
  wp (bind (warn t s) k) Q F S.
Proof.
  intros C Hs Hp H. eapply step_issue; eauto; [now left|]. intros. apply H; auto. lia.
Qed.
Lemma step_err_frags U t s fr (k : unit -> prog U) Q E F S : cx E S -> wspan src s ->
  Forall (fun x : text * span => wspan src (snd x)) fr -> plain t = true ->
  (forall S', cx E S' -> cx S S' -> m S' <= m S -> nerr S + 1 <= nerr S' -> AA S + winv <= AA S' ->
     tk S' = tk S -> sp S' = sp S -> wp (k tt) Q F S') ->
  wp (bind (err_frags t s fr) k) Q F S.
Proof.
  intros C Hs Hf Hp H. eapply step_issue; eauto; [now left|]. intros. apply H; auto. apply cx_A_err; auto. lia.
Qed.
Lemma step_err_frags_finally U t s fr (k : unit -> prog U) Q E F S : cx E S -> wspan src s ->
  Forall (fun x : text * span => wspan src (snd x)) fr -> plain t = true ->
  (finally (reported t s) -> forall S', cx E S' -> cx S S' -> m S' <= m S -> nerr S + 1 <= nerr S' -> AA S + winv <= AA S' ->
     tk S' = tk S -> sp S' = sp S -> wp (k tt) Q F S') ->
  wp (bind (err_frags t s fr) k) Q F S.
Proof.
  intros C Hs Hf Hp H. eapply step_issue; eauto; [now left|]. intros. apply H; auto. apply cx_A_err; auto. lia.
Qed.
Lemma step_lint_ident U l v s (k : unit -> prog U) Q E F S : cx E S -> wat_span src s v -> reserved v = false ->
  ((o_warn_unquoted opts = true -> finally (noted (msg_unquoted v) s)) -> forall S', cx E S' -> cx S S' -> m S' <= m S -> nerr S <= nerr S' -> AA S <= AA S' ->
     tk S' = tk S -> sp S' = sp S -> wp (k tt) Q F S') ->
  wp (bind (perf (OLintIdent l v s)) k) Q F S.
Proof.
  intros C Hs R H. pose proof (w_opts _ _ (c_wf _ _ C)) as O. apply wp_op; cbn [exec]; rewrite O; destruct (o_warn_unquoted opts) eqn:Eo; try discriminate.
  1,3,4: destruct (issue_ok S l (msg_unquoted v) s [] (c_wf _ _ C) (at_vspan _ _ _ (proj1 Hs)) (Forall_nil _) (or_intror (or_intror (or_intror (ex_intro _ v (conj eq_refl (conj (proj1 Hs) (conj R Eo)))))))) as (st' & E1 & C1 & M1 & N1 & T1 & P1 & _ & R1);
    rewrite E1; try discriminate.
  - intros x st2 X; injection X as <- <-. apply wp_compat. intros K. apply H; auto; try (cbn in *; lia); eauto using cx_trans, cx_A; try apply C1.
    intros _. exact (finally_noted _ _ _ K R1).
  - intros x st2 X; injection X as <- <-. destruct S. apply H; auto; [discriminate|]. apply cx_refl, C.
Qed.
Lemma keyword_vspan v s : keyword_at v s -> vspan src s.
Proof. intros [H _]. eapply at_vspan; eauto. Qed.
Lemma wf_keyword late S v k : wfx late S -> tk S = TIdent v k -> (exists k', kw_eqb k (KW k') = true) -> keyword_at v (sp S).
Proof.
  intros H E [k' K]. destruct (w_tok _ _ H) as (_ & w & [A _] & T). rewrite E in T. destruct k as [| |k]; cbn in K; try discriminate.
  cbn in T. destruct T as (-> & _ & T). split; [exact A|eauto].
Qed.
Lemma step_lint_caps U v s (k : unit -> prog U) Q E F S : cx E S -> keyword_at v s ->
  (forall S', cx E S' -> cx S S' -> m S' <= m S -> nerr S <= nerr S' -> AA S <= AA S' ->
     tk S' = tk S -> sp S' = sp S -> wp (k tt) Q F S') ->
  wp (bind (perf (OLintCaps v s)) k) Q F S.
Proof.
  intros C Hs H. apply wp_op; cbn [exec]; destruct (_ && _) eqn:L; try discriminate.
  1,3,4: apply andb_true_iff in L as [L1 L2]; apply negb_true_iff in L1; rewrite (w_opts _ _ (c_wf _ _ C)) in L2;
    destruct (issue_ok S Warning (msg_caps v) s [] (c_wf _ _ C) (keyword_vspan _ _ Hs) (Forall_nil _) (or_intror (or_intror (or_introl (ex_intro _ v (conj eq_refl (conj eq_refl (conj Hs (conj L1 L2))))))))) as (st' & E1 & C1 & M1 & N1 & T1 & P1 & _);
    rewrite E1; try discriminate.
  - intros x st2 X; injection X as <- <-. apply H; auto; try (cbn in *; lia); eauto using cx_trans, cx_A; apply C1.
  - intros x st2 X; injection X as <- <-. destruct S. apply H; auto. apply cx_refl, C.
Qed.
Lemma plain_expected n : plain (txt "Expected '" ++ txt n ++ txt "' here") = true.
Proof. reflexivity. Qed.
Lemma step_expected U n (k : unit -> prog U) Q E F S : cx E S ->
  (forall S', cx E S' -> cx S S' -> m S' <= m S -> nerr S + 1 <= nerr S' -> AA S + winv <= AA S' ->
     tk S' = tk S -> sp S' = sp S -> wp (k tt) Q F S') ->
  wp (bind (expected_error n) k) Q F S.
Proof.
  intros C H. unfold expected_error. change (bind (bind cur_span ?f) k) with (bind cur_span (fun s => bind (f s) k)).
  apply step_span. eapply step_err_frags; [exact C|apply wf_wspan, C|constructor|reflexivity|exact H].
Qed.
Lemma wp_fail U (Q : U -> gst -> Prop) E S : cx E S -> nerr E < nerr S -> wp Fail Q (fpost E) S.
Proof. intros C H _. split; auto. Qed.
Lemma wp_expected_failure U n (Q : U -> gst -> Prop) E S : cx E S -> wp (expected_failure n) Q (fpost E) S.
Proof.
  intros C. eapply step_expected; [exact C|]. intros. apply wp_fail; auto. pose proof (c_nerr _ _ C). lia.
Qed.
Lemma wp_err_here U t (Q : U -> gst -> Prop) E S : cx E S -> plain (txt t) = true -> wp (err_here t) Q (fpost E) S.
Proof.
  intros C H. apply step_span. eapply step_err; [exact C|apply wf_wspan, C|exact H|].
  intros. apply wp_fail; auto. pose proof (c_nerr _ _ C). lia.
Qed.

(** *** [recover] *)
Lemma recover_ok n e : forall br S, wf S -> m S + 1 <= n ->
  match recover_f n e br (g_st S) with
  | XOk r st' => compat (mkG st' (g_log S)) -> cx S (mkG st' (g_log S)) /\ (r = true -> e (s_tok st') = true)
  | XPanic w => fin_issues = None -> pan w
  | XFuel => fin_issues <> None
  end.
Proof.
  induction n as [|n IH]; intros br S H L; [lia|]. cbn [recover_f]. cbv zeta.
  assert (D : mkG (g_st S) (g_log S) = S) by now destruct S.
  destruct (_ && _) eqn:E1; [rewrite D; intros _; split; [now apply cx_refl|]; intros _; now apply andb_true_iff in E1|].
  destruct (tok_eqb (s_tok _) TEof) eqn:E2; [rewrite D; intros _; split; [now apply cx_refl|discriminate]|].
  destruct (tok_eqb (s_tok _) (s_delim _)); [rewrite D; intros _; split; [now apply cx_refl|discriminate]|].
  assert (Hl : is_eof (tk S) = false) by (unfold tk; destruct (s_tok (g_st S)); [..|discriminate]; reflexivity).
  assert (G : forall br, match
      match p_next (g_st S) with
        | XOk _ st' => recover_f n e br st'
        | XPanic w => XPanic w
        | XFuel => XFuel
        end with
  | XOk r st' => compat (mkG st' (g_log S)) -> cx S (mkG st' (g_log S)) /\ (r = true -> e (s_tok st') = true)
  | XPanic w => fin_issues = None -> pan w
  | XFuel => fin_issues <> None
  end).
  { clear br E1. intros br. pose proof (next_ok _ (wf_late _ H)) as N. destruct (p_next (g_st S)) as [x st1|w|]; auto.
    pose proof (recover_moved n e br st1) as Rm. pose proof (recover_grown n e br st1) as Rg.
    assert (Hc : compat (mkG st1 (g_log S)) -> match recover_f n e br st1 with
      | XOk r st' => compat (mkG st' (g_log S)) -> cx S (mkG st' (g_log S)) /\ (r = true -> e (s_tok st') = true)
      | XPanic w => fin_issues = None -> pan w
      | XFuel => fin_issues <> None
      end).
    { intros K1. destruct (N K1) as (N1 & N2 & _). rewrite Hl in N2. cbn in N2.
      specialize (IH br (mkG st1 (g_log S)) (c_wf _ _ N1) ltac:(lia)). cbn [g_st g_log] in IH.
      destruct (recover_f n e br st1) as [r st2| |]; auto. intros K. destruct (IH K) as [I1 I2]. split; [eapply cx_trans; eauto|exact I2]. }
    destruct (recover_f n e br st1) as [r st2|w|]; [|intros Nn; apply Hc; auto; now apply compat_none|intros Nn; apply Hc in Nn; auto; now apply compat_none].
    intros K. apply Hc; auto. eapply compat_step; [| |exact K]; [|now apply (Rm r)]. destruct (Rg r st2 eq_refl) as (_ & _ & _ & n' & E' & _). eauto. }
  destruct (s_tok (g_st S)); apply G.
Qed.
Lemma step_recover U e (k : unit -> prog U) Q E S : cx E S -> nerr E < nerr S ->
  (forall S', cx E S' -> cx S S' -> m S' <= m S -> AA S <= AA S' -> e (tk S') = true -> wp (k tt) Q (fpost E) S') ->
  wp (bind (recover e) k) Q (fpost E) S.
Proof.
  intros C L H. unfold recover.
  change (bind (bind (perf ?o) ?f) k) with (Op o (fun b => bind (f b) k)).
  pose proof (recover_ok (rec_fuel (g_st S)) e [] S (c_wf _ _ C)) as R.
  assert (LF : m S + 1 <= rec_fuel (g_st S)).
  { unfold m, rec_fuel. destruct (is_eof _), (s_peek _) as [[t ?]|]; cbn; try lia; destruct (is_eof t); cbn; lia. }
  specialize (R LF). apply wp_op_none; cbn [exec].
  - intros x st' E1. rewrite E1 in R. apply wp_compat. intros K. destruct (R K) as [C1 Rr]. assert (C2 : cx E (mkG st' (g_log S))) by (eapply cx_trans; eauto).
    destruct x; cbn.
    + apply H; auto; [apply C1|now apply cx_A].
    + split; auto. pose proof (c_nerr _ _ C1). cbn in *. lia.
  - intros Nn w E1. rewrite E1 in R. auto.
  - intros Nn E1. rewrite E1 in R. auto.
Qed.
End Prim.
