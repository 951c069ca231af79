(** Specifications of the functions of src/data_type.rs, src/qualified_name.rs and src/select.rs. *)
From Verif Require Export SafeGo Select SafeSpan.
Local Open Scope string_scope.
Local Open Scope list_scope.

Section Fns.
Context {V : env}.
Lemma parse_qualified_name_spec n : spec false n 0 d1 d0 gW (parse_qualified_name n).
Proof.
  start. unfold parse_qualified_name. eapply step0; [sspec|eassumption|bnd|intro_step].
  eapply tail0; [eapply (loop0_spec (list (ident * span) * ident) qname _ _ false n)|eassumption|bnd|intro_step; fin].
  - intros [l q] Hx. start. norm. cbn [fst snd]. go.
  - ntac.
  - okg.
Qed.
Hint Resolve parse_qualified_name_spec : spec.
Lemma parse_width_spec N : spec false N 0 d0 d0 gW parse_width.
Proof.
  unfold parse_width. start. apply step_token. destruct (negb _); [go|].
  eapply step0; [sspec|eassumption|bnd|intro_step].
  eapply step0; [eapply recovered_spec with (e0 := d0) (g := gW); [eapply spec_d0; sspec|gwx; lia|intros; okg]|eassumption|bnd|intro_step].
  destruct a0; norm; go.
Qed.
Hint Resolve parse_width_spec : spec.
Lemma parse_width_some S : wf S -> tok_eqb (tk S) TLParen = true ->
  wp parse_width (fun a S' => post S false 0 d0 d0 gW a S' /\ a <> None) (fpost S) S.
Proof.
  intros Hw He. pose proof (cx_refl _ Hw) as C. unfold parse_width. apply step_token. rewrite He. cbn [negb].
  eapply step0; [sspec|eassumption|bnd|intro_step].
  eapply step0; [eapply recovered_spec with (e0 := d0) (g := gW); [eapply spec_d0; sspec|gwx; lia|intros; okg]|eassumption|bnd|intro_step].
  destruct a0; norm. eapply step0; [sspec|eassumption|bnd|intro_step]. apply wp_ret. split; [fin|discriminate].
Qed.
Lemma parse_width_req_spec N : spec false N 0 d0 d0 gW parse_width_req.
Proof.
  unfold parse_width_req. start. apply step_token. destruct (tok_eqb (tk S) TLParen) eqn:E; cbn [negb]; [|go].
  apply wp_bind. eapply wp_conseq; [now apply parse_width_some| |auto]. intros [a|] S' [H H']; [|congruence]. apply wp_ret. exact H.
Qed.
Hint Resolve parse_width_req_spec : spec.
Lemma parse_enum_set_values_spec n : spec false n 0 d1 d0 gW (parse_enum_set_values n).
Proof.
  unfold parse_enum_set_values. start. 
  eapply step0; [sspec|eassumption|bnd|intro_step].
  eapply step0; [eapply recovered_acc_spec; eapply loop_acc_spec with (b := false) (N := n)|eassumption|bnd|intro_step].
  - intros l Hl. start. eapply step0; [sspec|eassumption|bnd|intro_step]. cbv zeta. apply step_token.
    assert (OL : Forall (ok false) (atoms (l ++ [a0]))) by okg.
    destruct (tok_eqb _ TComma); [|destruct (tok_eqb _ TRParen)].
    + eapply step0; [sspec|eassumption|bnd|intro_step]. apply wp_ret. split; [eassumption|].
      cbn [dctl ectl snd]. pose proof (c_nerr _ _ C3). repeat split; [lia|lia|gwx; gwl|okg].
    + apply wp_ret. split; [eassumption|].
      cbn [dctl ectl snd]. pose proof (c_nerr _ _ C2). repeat split; [lia|lia|gwx; gwl|okg].
    + eapply expected0; [eassumption|intros]. apply wp_ret. split; [eassumption|].
      cbn [dctl ectl snd]. repeat split; [lia|lia|gwx; gwl|okg].
  - ntac.
  - constructor.
  - go.
Qed.
Hint Resolve parse_enum_set_values_spec : spec.
Lemma parse_type_spec n : spec false n 0 d1 d0 gW (parse_type n).
Proof. unfold parse_type. start. go. destruct (is_sqlite _); fin. Qed.
Hint Resolve parse_type_spec : spec.

Section R.
Variable r : recs.
Class recs_ok := mkRecsOk {
  k_expr : forall i, spec false (r_n r - 1) 0 d0 d0 gW (r_expr r i);
  k_compound : spec false (r_n r - 1) 0 d0 d0 gW (r_compound r);
  k_stmt : spec nb (r_n r - 1) 0 d0 d0 gW (r_stmt r) }.
Context {K : recs_ok}.
Hint Resolve k_expr k_compound k_stmt : spec.

Lemma invalid_w s : gW (EInvalid (mkInvalid s)) <= winv.
Proof. change (gW (EInvalid (mkInvalid s))) with (gW (mkInvalid s)). apply gW_invalid. Qed.
Lemma paren_expr_spec : spec false (r_n r) 0 d1 d0 gW (paren_expr r).
Proof.
  unfold paren_expr. start. eapply step0; [sspec|eassumption|bnd|intro_step].
  eapply step0; [eapply recovered_opt_spec; sspec|eassumption|bnd|intro_step].
  eapply step0; [sspec|eassumption|bnd|intro_step]. apply wp_ret.
  destruct a0; norm; cbn [gopt] in *; [fin|]. apply post0; [assumption|mgoal| |okg].
  pose proof (invalid_w (join a a1)). lia.
Qed.
Hint Resolve paren_expr_spec : spec.
Lemma parse_property_spec no_as : spec false (r_n r) 0 dopt d0 gW (parse_property r no_as).
Proof.
  unfold parse_property. start. apply step_token. eapply step_dialect; [eassumption|].
  go.
Qed.
Hint Resolve parse_property_spec : spec.
Lemma parse_data_type_spec no_as : spec false (r_n r) 0 d1 d0 gW (parse_data_type r no_as).
Proof. unfold parse_data_type. start. eapply step0; [sspec|eassumption|bnd|intro_step]. destruct a.
eapply step0; [eapply loop_nil_spec with (b := false) (N := r_n r)|eassumption|bnd|intro_step]; [|ntac|go].
intros l Hl; start; go.
Qed.
Hint Resolve parse_data_type_spec : spec.
Lemma parse_select_expr_spec : spec false (r_n r - 1) 0 d0 d0 gW (parse_select_expr r).
Proof. unfold parse_select_expr. start. go. Qed.
Hint Resolve parse_select_expr_spec : spec.
Lemma parse_alias_spec N : spec false N 0 d0 d0 gW parse_alias.
Proof. unfold parse_alias. start. go. Qed.
Hint Resolve parse_alias_spec : spec.
Lemma parse_index_hint_spec n : spec false n 0 dopt d0 gW (parse_index_hint n).
Proof. unfold parse_index_hint. start. go. Qed.
Hint Resolve parse_index_hint_spec : spec.
Lemma parse_outer_join_spec N k : spec false N 0 d1 d0 gW (parse_outer_join k).
Proof. unfold parse_outer_join. start. go. Qed.
Hint Resolve parse_outer_join_spec : spec.
Lemma parse_join_type_spec N : spec false N 0 dopt d0 gW parse_join_type.
Proof. unfold parse_join_type, parse_outer_join. start. go. Qed.
Hint Resolve parse_join_type_spec : spec.
Lemma parse_join_spec_spec : spec false (r_n r) 0 dopt d0 gW (parse_join_spec r).
Proof. unfold parse_join_spec. start. go. Qed.
Hint Resolve parse_join_spec_spec : spec.

Lemma parse_table_reference_inner_spec : spec false (r_n r - 1) 0 d0 d0 gW (parse_table_reference_inner r).
Proof.
  unfold parse_table_reference_inner. start. apply step_token. destruct (_ || _).
  - go.
  - destr (tk S); try solve [go]. eapply step0; [sspec|eassumption|bnd|intro_step].
    eapply step0; [sspec|eassumption|bnd|intro_step]. destruct a0.
    eapply step0; [eapply loop_nil_spec with (b := false) (N := r_n r)|eassumption|bnd|intro_step]; [|ntac|].
    + intros l Hl; start; go.
    + eapply step_dialect; [eassumption|]. destruct a0 as [|h hs]; [go|].
      norm. eapply (step_feature_at _ false FIndexHint); [eassumption| | |reflexivity|reflexivity|fmsg|discriminate|intros; go].
      * eapply spv_of; [|eassumption]. typeclasses eauto.
      * apply list_some; [|discriminate]. intros x; destruct x; some_.
Qed.
Hint Resolve parse_table_reference_inner_spec : spec.
Lemma parse_table_reference_spec : spec false (r_n r - 1) 0 d0 d0 gW (parse_table_reference r).
Proof.
  unfold parse_table_reference. start. eapply step0; [sspec|eassumption|bnd|intro_step].
  eapply tail0; [eapply loop0_spec with (b := false) (N := r_n r - 1)|eassumption|bnd|intro_step; fin]; [|ntac|okg].
  intros l Hl; start; go.
Qed.
Hint Resolve parse_table_reference_spec : spec.
Lemma parse_flags_spec n tbl : words_ok LTag tbl = true -> spec false n 0 d0 d0 gW (parse_flags n tbl).
Proof. intros Ht. unfold parse_flags. eapply loop_nil_spec; [|ntac]. intros l Hl. start. go. Qed.
Hint Extern 1 (spec _ _ _ _ _ _ (parse_flags _ _)) => (apply parse_flags_spec; reflexivity) : spec.
Lemma opt_where_spec k : spec false (r_n r) 0 d0 d0 gW (opt_where r k).
Proof. unfold opt_where. start. go. Qed.
Hint Resolve opt_where_spec : spec.
Lemma parse_order_elements_spec : spec false (r_n r - 1) 0 d0 d0 gW (parse_order_elements r).
Proof. unfold parse_order_elements. eapply sep_list_spec with (d := d0); [start; go|ntac]. Qed.
Hint Resolve parse_order_elements_spec : spec.
Lemma parse_order_by_spec : spec false (r_n r) 0 d0 d0 gW (parse_order_by r).
Proof. unfold parse_order_by. start. go. Qed.
Hint Resolve parse_order_by_spec : spec.
Lemma parse_limit_spec : spec false (r_n r) 0 d0 d0 gW (parse_limit r).
Proof. unfold parse_limit. start. go. Qed.
Hint Resolve parse_limit_spec : spec.
Lemma parse_locking_spec : spec false (r_n r) 0 d0 d0 gW (parse_locking r).
Proof.
  unfold parse_locking. start. eapply step0; [sspec|eassumption|bnd|intro_step]. destruct a; norm; [|go].
  apply step_token. eapply (step0_inl _ _ _ false 0 d1 gW); [eassumption|intros; go|intro_step].
  eapply step_dialect; [eassumption|].
  assert (G : forall S3, cx S S3 -> m S3 < m S -> AA S <= AA S3 -> (forall b, Forall (ok b) (key_lock a)) ->
     wp (o <- skip_keyword "OF" ;;
      of <- match o with
            | Some of_span =>
                l <- sep_list (r_n r) consume_plain_identifier ;; Ret (Some (of_span, l))
            | None => Ret None
            end ;;
      t <- token ;;
      wait <- (if is_kw t "NOWAIT" then s <- consume_keyword "NOWAIT" ;; Ret (LWNoWait s)
               else if is_kw t "SKIP" then
                 s <- consume_keywords ["SKIP"; "LOCKED"] ;; Ret (LWSkipLocked s)
               else Ret LWDefault) ;;
      Ret (Some (mkLocking s a of wait))) (post S false 0 d0 d0 gW) (fpost S) S3).
  { intros. go. }
  unfold key_lock in G. destruct (_ || _); cbn [andb].
  - destruct (is_postgresql (o_dialect opts)) eqn:Ed; cbn [negb].
    + apply G; auto; try lia. constructor; [|constructor]. now left.
    + eapply step_err_finally; [eassumption|vsp|unfold plain; destruct (o_dialect opts); discriminate||reflexivity|]. intros. apply G; auto; try lia.
      constructor; [|constructor]. now right.
  - apply G; auto; try lia.
Qed.
Hint Resolve parse_locking_spec : spec.
Lemma parse_select_spec : spec false (r_n r) 0 d1 d0 gW (parse_select r).
Proof. unfold parse_select. start. go. Qed.
Hint Resolve parse_select_spec : spec.
Lemma parse_compound_query_bottom_spec : spec false (r_n r) 0 d1 d0 gW (parse_compound_query_bottom r).
Proof.
  unfold parse_compound_query_bottom. start. apply step_token. destr (tok_eqb (tk S) TLParen); [|go].
  eapply step0; [sspec|eassumption|bnd|intro_step].
  eapply step0; [eapply recovered_opt_spec; sspec|eassumption|bnd|intro_step].
  eapply step0; [sspec|eassumption|bnd|intro_step]. apply wp_ret.
  destruct a0; norm; cbn [gopt] in *; [fin|]. apply post0; [assumption|mgoal| |okg].
  pose proof (gW_invalid (mkInvalid a)). change (gW (SInvalid (mkInvalid a))) with (gW (mkInvalid a)). lia.
Qed.
Hint Resolve parse_compound_query_bottom_spec : spec.
Lemma parse_unions_spec : spec false (r_n r) 0 d0 d0 gW (parse_unions r).
Proof. unfold parse_unions. eapply loop_nil_spec; [|ntac]. intros l Hl. start. go. Qed.
Hint Resolve parse_unions_spec : spec.
Lemma parse_compound_query_spec : spec false (r_n r) 0 d1 d0 gW (parse_compound_query r).
Proof. unfold parse_compound_query. start. go. Qed.
Hint Resolve parse_compound_query_spec : spec.
End R.
End Fns.
#[export] Hint Resolve k_expr k_compound k_stmt parse_qualified_name_spec parse_width_spec parse_width_req_spec parse_enum_set_values_spec parse_type_spec paren_expr_spec parse_property_spec parse_data_type_spec parse_select_expr_spec parse_alias_spec parse_index_hint_spec parse_outer_join_spec parse_join_type_spec parse_join_spec_spec parse_table_reference_inner_spec parse_table_reference_spec opt_where_spec parse_order_elements_spec parse_order_by_spec parse_limit_spec parse_locking_spec parse_select_spec parse_compound_query_bottom_spec parse_unions_spec parse_compound_query_spec : spec.
#[export] Hint Extern 1 (spec _ _ _ _ _ _ (parse_flags _ _)) => (apply parse_flags_spec; reflexivity) : spec.
