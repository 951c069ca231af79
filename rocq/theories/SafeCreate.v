(** Specifications of the functions of src/create.rs. *)
From Verif Require Export SafeExpr Create.
Local Open Scope string_scope.
Local Open Scope list_scope.

Section Fns.
Context {V : env}.
Lemma parse_if_not_exists_spec N : spec false N 0 d0 d0 gW parse_if_not_exists.
Proof. unfold parse_if_not_exists. start. go. Qed.
Lemma parse_if_exists_spec N : spec false N 0 d0 d0 gW parse_if_exists.
Proof. unfold parse_if_exists. start. go. Qed.
Hint Resolve parse_if_not_exists_spec parse_if_exists_spec : spec.
Lemma skip_identifiers_spec n : spec false n 0 d0 d0 gW (skip_identifiers n).
Proof. unfold skip_identifiers. start. go. Qed.
Hint Resolve skip_identifiers_spec : spec.
Lemma parse_create_constraint_definition_spec n : spec false n 0 d1 d0 gW (parse_create_constraint_definition n).
Proof. unfold parse_create_constraint_definition. start. go. Qed.
Hint Resolve parse_create_constraint_definition_spec : spec.
Lemma parse_param_direction_spec N : spec false N 0 d0 d0 gW parse_param_direction.
Proof. unfold parse_param_direction. start. go. Qed.
Hint Resolve parse_param_direction_spec : spec.
Lemma skip_dollar_body_spec n : spec false n 0 d1 d0 gW (skip_dollar_body n).
Proof.
  unfold skip_dollar_body. start. eapply step0; [sspec|eassumption|bnd|intro_step].
  change 0 with (@gW V unit _ tt).
  eapply tail0; [eapply (loop0_spec unit unit _ _ false n)|eassumption|bnd|intro_step; fin]; [|ntac|constructor].
  intros x _. change (gW x) with 0. start. apply step_token. destruct (_ || _) eqn:E; [go|].
  apply orb_false_iff in E as [E _]. eapply consume0; [eassumption| |intros; go].
  revert E. match goal with |- tok_eqb ?t _ = _ -> _ => destruct t end; cbn; auto; discriminate. Qed.
Hint Resolve skip_dollar_body_spec : spec.
Lemma parse_characteristic_spec n : spec false n 0 dopt d0 gW (parse_characteristic n).
Proof. unfold parse_characteristic. start. go. Qed.
Hint Resolve parse_characteristic_spec : spec.
Lemma parse_index_column_spec N : spec false N 0 d1 d0 gW parse_index_column.
Proof.
  unfold parse_index_column. start. eapply step0; [sspec|eassumption|bnd|intro_step]. apply step_token. destruct (kw_assoc _ _) eqn:Ek; [|go].
  eapply step_consume; [eassumption|]. intros; norm. eapply step_dialect; [eassumption|].
  eapply (step_feature _ FOpclass); [eassumption|vsp|reflexivity|reflexivity|fmsg|intros]. go.
Qed.
Hint Resolve parse_index_column_spec : spec.
Lemma default_qname_ok S b : compat S -> 0 < nerr S -> Forall (ok b) (atoms default_qname).
Proof.
  intros K H. constructor; [|constructor]. exists []. split; [|split; [now left|split; [discriminate|congruence]]]. split; [|apply (wspan_0 S K H)].
  exists [], src. repeat split; reflexivity.
Qed.
Lemma default_qname_W : gW default_qname = 0.
Proof. change (gW default_qname) with (W ([] ++ atoms (mkIdent [] (0, 0)))). rewrite W_app, W_ident. reflexivity. Qed.
(** [skip_keyword] returns the span of the current token. *)
Lemma skip_keyword_at k S : wf S ->
  wp (skip_keyword k) (fun a S' => post S false 0 dopt d0 gW a S' /\ (a = None \/ a = Some (sp S))) (fpost S) S.
Proof.
  intros Hw. apply step_token. destruct (is_kw (tk S) k) eqn:E; [|apply wp_ret; split; [now apply post_none|auto]].
  apply is_kw_inv in E as [v E]. apply wp_try. unfold consume_keyword. apply step_token. rewrite E. cbn [kw_eqb].
  rewrite String.eqb_refl. apply step_span.
  eapply step_lint_caps; [now apply cx_refl|eapply wf_keyword; [exact Hw|exact E|exists k; apply String.eqb_refl]|]. intros S' C _ M1 N1 A1 T1 P1.
  change consume with (bind consume Ret). eapply step_consume; [exact C|]. intros S2 C2 _ M2 A2 _.
  rewrite T1, E in M2. cbn in M2. apply wp_ret. apply wp_ret. rewrite P1. split; [|auto]. split; [exact C2|]. cbn [dopt]. rewrite gW_some, gW_span.
  pose proof (c_nerr _ _ C2). unfold d0. repeat split; try lia. apply (ok_span false), wf_wspan, Hw.
Qed.
Lemma create_table_head_spec n : spec false n 0 d0 eok gW (create_table_head n).
Proof.
  unfold create_table_head. start.
  assert (G : forall (ine : option span) E, cx S E -> AA S <= AA E -> Forall (ok false) (atoms ine) ->
    wp (Try (parse_qualified_name n) (fun q =>
      match q with
      | Some q => Ret (q, ine, true)
      | None => Ret (default_qname, ine, false)
      end)) (post S false 0 d0 eok gW) (fpost S) E).
  { intros ine E CE AE OE. apply wp_try. pose proof (c_m _ _ CE). assert (Hi : gW ine = 0) by (destruct ine; [rewrite gW_some, gW_span|]; reflexivity).
    eapply wp_conseq; [apply (parse_qualified_name_spec n); [apply CE|lia]| |].
    - intros q S1 (C1 & M1 & N1 & A1 & O1). apply wp_ret. assert (C2 : cx S S1) by (eapply cx_trans; eauto). split; [exact C2|].
      pose proof (c_nerr _ _ C2). pose proof (c_m _ _ C2). unfold d0, eok. cbn [snd]. repeat split; try lia; [|okg].
      rewrite !gW_pair, Hi. change (gW true) with 0. lia.
    - intros S1 [C1 L1]. apply wp_compat. intros K1. apply wp_ret. assert (C2 : cx S S1) by (eapply cx_trans; eauto). split; [exact C2|].
      pose proof (c_nerr _ _ CE). pose proof (c_m _ _ C2). pose proof (cx_A _ _ C2). unfold d0, eok. cbn [snd]. repeat split; try lia.
      + rewrite !gW_pair, Hi, default_qname_W. change (gW false) with 0. lia.
      + pose proof (default_qname_ok S1 false K1 ltac:(lia)). okg. }
  apply wp_bind.
  assert (X : wp (skip_keyword "IF") (fun a S1 => post S false 0 dopt d0 gW a S1 /\ (a = None \/ a = Some (sp S))) (fpost S) S).
  { now apply skip_keyword_at. }
  eapply wp_conseq; [exact X| |auto]. clear X. intros a S1 [(C1 & M1 & N1 & A1 & O1) Ha]. destruct a as [if_|]; [|rewrite gW_none in A1; norm; apply G; auto; try lia; constructor].
  destruct Ha as [Ha|Ha]; [discriminate|]. injection Ha as ->. cbn [consume_keywords consume_keywords_from].
  apply wp_try.
  assert (Y : wp (a <- consume_keyword "NOT" ;; b <- consume_keyword "EXISTS" ;; Ret (join b a))
     (fun a S2 => post S1 false 0 d0 d0 gW a S2 /\ wspan src (sp_start (sp S), sp_end a)) (fpost S1) S1).
  { apply wp_bind. eapply wp_conseq; [apply consume_keyword_at, C1| |auto]. intros a S2 [(C2 & M2 & N2 & A2 & O2) ->].
    assert (C2' : cx S1 S2) by exact C2.
    apply wp_bind. eapply wp_conseq; [apply consume_keyword_at, C2| |intros S3; now apply fpost_trans].
    intros a S3 [(C3 & M3 & N3 & A3 & O3) ->]. apply wp_ret. norm. split.
    - apply post0; [eapply cx_trans; eauto|unfold d0; lia|rewrite gW_span; lia|okg].
    - pose proof (wf_wspan _ Hw) as [(L1 & B1 & B2) I1]. pose proof (wf_wspan _ (c_wf _ _ C1)) as [(L2 & B3 & B4) I2]. pose proof (wf_wspan _ (c_wf _ _ C2)) as [(L3 & B5 & B6) I3].
      pose proof (c_pos _ _ C1). pose proof (c_pos _ _ C2). unfold sp_start, sp_end, join. cbn [fst snd].
      split; [|unfold inside, finally in *; destruct fin_issues; [|auto]; cbn [fst snd]; split; [lia|apply I1]].
      split; [|split]; cbn [fst snd]; [lia|exact B1|].
      destruct (Nat.max_spec (snd (sp S2)) (snd (sp S1))) as [[_ ->]|[_ ->]]; auto. }
  eapply wp_conseq; [exact Y| |].
  - intros s S2 [(C2 & M2 & N2 & A2 & O2) Hv]. norm. apply G; [eapply cx_trans; eauto|lia|okg].
  - intros S2 [C2 L2]. apply wp_compat. intros K1. apply wp_ret. assert (C3 : cx S S2) by (eapply cx_trans; eauto). split; [exact C3|].
    pose proof (c_m _ _ C3). pose proof (cx_A _ _ C3). pose proof (c_nerr _ _ C1). unfold d0, eok. cbn [snd]. repeat split; try lia.
    + rewrite !gW_pair, gW_none, default_qname_W. change (gW false) with 0. lia.
    + pose proof (default_qname_ok S2 false K1 ltac:(lia)). okg.
Qed.
Hint Resolve create_table_head_spec : spec.
Ltac ctl_fin := apply wp_ret; norm; split; [assumption|];
  match goal with C : cx ?E ?S |- m ?S + _ <= m ?E /\ _ => pose proof (c_nerr _ _ C) end;
  unfold dctl, ectl; cbn [snd]; repeat split; try lia; try (gwx; gwl); try okg.
Lemma parse_table_option_spec n l : Forall (ok false) (atoms l) ->
  spec false n (gW l) dctl ectl gW (parse_table_option n l).
Proof.
  intros Hl. unfold parse_table_option. start. apply step_span, step_token, step_delim.
  destr (kw_assoc ident_options (tk S)).
  - destruct p. do 3 (eapply step0; [sspec|eassumption|bnd|intro_step]). ctl_fin.
  - destr (is_kw (tk S) "DEFAULT"); [|destr (is_kw (tk S) "COMMENT"); [|destr (is_kw (tk S) "STRICT"); [|destruct (tok_eqb _ _); [|destruct (tok_eqb _ _)]]]].
    + eapply step0; [sspec|eassumption|bnd|intro_step]. apply step_token. destr (kw_assoc default_options_ (tk S0)).
      * destruct p. do 3 (eapply step0; [sspec|eassumption|bnd|intro_step]). ctl_fin.
      * go.
    + do 3 (eapply step0; [sspec|eassumption|bnd|intro_step]). ctl_fin.
    + eapply step0; [sspec|eassumption|bnd|intro_step]. ctl_fin.
    + ctl_fin.
    + ctl_fin.
    + go.
Qed.
Lemma parse_create_option_spec N : spec false N 0 dopt d0 gW parse_create_option.
Proof. unfold parse_create_option. start. go. Qed.
Hint Resolve parse_create_option_spec : spec.

(** The atoms of the condition of an index, with the use of the feature. *)
Definition Atoms_partial : Atoms (option (span * expr)) := fun x => atoms x ++ used FPartialIndex (spn x).
Lemma partial_W x : W (@atoms _ Atoms_partial x) = W (atoms x).
Proof. unfold Atoms_partial, atoms at 1. rewrite W_app, W_used. lia. Qed.
Section R.
Variable r : recs.
Context {K : recs_ok r}.
Lemma parse_create_definition_spec : spec false (r_n r) 0 d1 d0 gW (parse_create_definition r).
Proof. unfold parse_create_definition. start. go. Qed.
Hint Resolve parse_create_definition_spec : spec.
Lemma parse_create_view_spec cs os : wspan src cs -> Forall (ok false) (atoms os) -> 
  spec false (r_n r) (gW os) d1 d0 gW (parse_create_view r cs os).
Proof. intros. unfold parse_create_view. start. go. Qed.
Lemma parse_function_param_spec : spec false (r_n r) 0 d1 d0 gW (parse_function_param r).
Proof. unfold parse_function_param. start. go. Qed.
Hint Resolve parse_function_param_spec : spec.
Lemma parse_create_function_spec cs os : wspan src cs -> Forall (ok false) (atoms os) -> 
  spec nb (r_n r) (gW os) d1 d0 gW (parse_create_function r cs os).
Proof.
  intros. unfold parse_create_function. start.
  do 8 (eapply step0; [sspec|eassumption|bnd|intro_step]).
  eapply step_dialect; [eassumption|].
  eapply (step0_inl _ _ _ false 0 d0 gW); [eassumption|intros; go|intro_step].
  eapply step0; [eapply loop_nil_spec with (b := false) (N := r_n r)|eassumption|bnd|intro_step]; [intros l Hl; start; go|ntac|].
  go.
Qed.
Lemma parse_create_trigger_spec cs os : wspan src cs -> Forall (ok false) (atoms os) -> 
  spec nb (r_n r) (gW os) d1 d0 gW (parse_create_trigger r cs os).
Proof.
  intros. unfold parse_create_trigger. start.
  eapply (consume_keyword_word _ (r_n r)); [eassumption|bnd|]. intros a S0 C0 M A O HT; norm.
  do 2 (eapply step0; [sspec|eassumption|bnd|intro_step]). apply step_token.
  eapply (step0_inl _ _ _ false 0 d0 gW); [eassumption|intros; go|intro_step]. apply step_token.
  eapply (step0_inl _ _ _ false 0 d0 gW); [eassumption|intros; go|intro_step].
  do 3 (eapply step0; [sspec|eassumption|bnd|intro_step]).
  apply step_permit. eapply step_setpermit.
  match goal with H : cx S ?X |- wp _ _ _ (setp ?X true) => rename H into CX; set (SX := X) in * end.
  apply wp_bind. eapply wp_conseq; [apply (@k_stmt _ r K); [apply setp_wf, CX|change (m (setp SX true)) with (m SX); lia]| |].
  2: { intros S8 [C8 N8]. eapply fpost_trans; [exact CX|]. split; [eapply setp_err; eauto|exact N8]. }
  intros s S8 (C8 & M8 & N8 & A8 & O8). change (nerr (setp SX true)) with (nerr SX) in *. change (m (setp SX true)) with (m SX) in *. change (AA (setp SX true)) with (AA SX) in *.
  destruct s as [v|].
  2: { apply wp_bind. unfold expected_failure. eapply step_expected; [exact C8|]. intros S9 C9 X9 _ N9 _ _ _. intros _. eapply fpost_trans; [exact CX|].
       assert (L : nerr SX < nerr S9) by (pose proof (c_nerr _ _ C8); lia). split; [eapply setp_err; eauto|exact L]. }
  apply wp_bind, wp_ret. apply step_setpermit. pose proof (setp_back _ _ _ C8) as C9. set (S9 := setp S8 _) in *.
  change (m S8) with (m S9) in M8. change (AA S8) with (AA S9) in A8. clearbody S9. rewrite gW_some in A8. change (Forall (ok nb) (atoms v)) in O8.
  assert (CC : cx S S9) by (eapply cx_trans; eauto). pose proof (cx_A _ _ CX). go.
Qed.
Lemma parse_create_type_spec cs os : wspan src cs -> Forall (ok false) (atoms os) -> 
  spec false (r_n r) (gW os) d1 d0 gW (parse_create_type r cs os).
Proof.
  intros. unfold parse_create_type. start. eapply step0; [sspec|eassumption|bnd|intro_step]. eapply step_dialect; [eassumption|].
  eapply (step_feature _ FCreateType); [eassumption|vsp|reflexivity|reflexivity|fmsg|intros]. go.
Qed.
Lemma parse_create_index_spec cs os : wspan src cs -> Forall (ok false) (atoms os) -> 
  spec false (r_n r) (gW os) d1 d0 gW (parse_create_index r cs os).
Proof.
  intros. unfold parse_create_index. start.
  do 5 (eapply step0; [sspec|eassumption|bnd|intro_step]).
  eapply step_skip_kw; [eassumption|]. intros Su u Cu Mu Au Ou Hu.
  eapply (step0_inl _ _ _ false 0 d0 gW); [eassumption|intros; go|intro_step].
  do 4 (eapply step0; [sspec|eassumption|bnd|intro_step]).
  eapply (step0_inl _ _ Atoms_partial false 0 d0 (@gW _ _ Atoms_partial)); [eassumption|intros|].
  2:{ intros ap Sp Cp Mp Ap Op. unfold gW in Ap. rewrite partial_W in Ap. fold (gW ap) in Ap.
      apply Forall_app in Op as [Op Op']. norm. go. }
  destruct a8; norm.
  2:{ apply wp_ret. apply post0; [assumption|mgoal|unfold gW; rewrite partial_W; cbn; lia|constructor]. }
  eapply (step0 _ _ _ false (r_n r - 1)); [sspec|eassumption|bnd|intro_step].
  eapply step_dialect; [eassumption|].
  match goal with |- wp (bind (if is_maria ?d then ?x else ?y) ?k) ?Q ?F ?S => 
    replace (if is_maria d then x else y) with (if negb (is_maria d) then y else x) by now destruct (is_maria d) end.
  eapply (step_feature_at _ false FPartialIndex); [eassumption| | |reflexivity|reflexivity|fmsg|discriminate|intros].
  - apply spv_jn; [eapply spv_of; [|eassumption]; typeclasses eauto|now apply spv_expr].
  - some_.
  - apply wp_ret. apply post0; [assumption|mgoal|unfold gW; rewrite partial_W; fold (gW (Some (s, a8))); gwx; gwl|].
    apply ok_app; [okg|auto].
Qed.
Lemma parse_create_table_spec cs os : wspan src cs -> Forall (ok false) (atoms os) ->
  spec false (r_n r) (gW os) d1 d0 gW (parse_create_table r cs os).
Proof.
  intros. unfold parse_create_table. start.
  eapply step0; [sspec|eassumption|bnd|intro_step].
  eapply step0; [eapply recovered_acc_spec; sspec|eassumption|bnd|intro_step]. destruct a0; norm.
  eapply step0; [sspec|eassumption|bnd|intro_step]. apply step_token.
  eapply (step0_inl _ _ _ false 0 d0 gW); [eassumption|intros; go|intro_step].
  eapply step0; [sspec|eassumption|bnd|intro_step]. apply step_delim.
  eapply (step0 _ _ _ false (r_n r) 0); [eapply recovered_acc_spec|eassumption|bnd|intro_step; go].
  change 0 with (@gW V (list table_option) _ []). eapply loop_acc_spec with (N := r_n r); [|ntac|constructor].
  intros l Hl. now apply parse_table_option_spec.
Qed.
Lemma parse_create_spec : spec nb (r_n r) 0 d1 d0 gW (parse_create r).
Proof.
  unfold parse_create. start. apply step_span.
  eapply step0; [sspec|eassumption|bnd|intro_step].
  eapply (step0 _ _ _ false (r_n r) 0); [eapply recovered_acc_spec|eassumption|bnd|intro_step].
  { change 0 with (@gW V (list create_option) _ []). eapply loop_acc_spec with (N := r_n r) (b := false); [|ntac|constructor].
    intros l Hl. start. eapply step0; [sspec|eassumption|bnd|intro_step]. destruct a0; norm; ctl_fin. }
  apply step_token. pose proof (wf_wspan _ Hw).
  assert (T : forall p : prog stmt, spec nb (r_n r) (gW a0) d1 d0 gW p -> wp p (post S nb 0 d1 d0 gW) (fpost S) S1).
  { intros p Hp. eapply tail0; [exact Hp|eassumption|bnd|intro_step]. fin. }
  assert (T' : forall p : prog stmt, spec false (r_n r) (gW a0) d1 d0 gW p -> wp p (post S nb 0 d1 d0 gW) (fpost S) S1).
  { intros p Hp. eapply tail0; [exact Hp|eassumption|bnd|intro_step]. fin. }
  repeat destruct (is_kw (tk S1) _).
  - now apply T', parse_create_index_spec.
  - now apply T', parse_create_table_spec.
  - now apply T', parse_create_view_spec.
  - now apply T, parse_create_function_spec.
  - now apply T, parse_create_trigger_spec.
  - now apply T', parse_create_type_spec.
  - go.
Qed.
End R.
End Fns.
#[export] Hint Resolve parse_if_not_exists_spec parse_if_exists_spec skip_identifiers_spec parse_create_spec : spec.
