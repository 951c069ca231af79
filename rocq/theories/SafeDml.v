(** Specifications of the functions of src/alter.rs, src/drop.rs, src/truncate.rs,
    src/rename.rs, src/delete.rs, src/update.rs and src/insert_replace.rs. *)
From Verif Require Export SafeCreate Dml.
Local Open Scope string_scope.
Local Open Scope list_scope.

Section Fns.
Context {V : env}.
#[local] Instance SpOk_expr_v b : SpOk (wspan src) (pB b) expr.
Proof. intros a H. apply expr_spok; [typeclasses eauto|exact H]. Qed.
#[local] Instance SpOk_stmt_v b : SpOk (wspan src) (pB b) stmt.
Proof. intros a H. apply stmt_spok; [typeclasses eauto|exact H]. Qed.
Ltac ctl_fin := apply wp_ret; norm; split; [assumption|];
  match goal with C : cx ?E ?S |- m ?S + _ <= m ?E /\ _ => pose proof (c_nerr _ _ C) end;
  unfold dctl, ectl; cbn [snd]; repeat split; try lia; try (gwx; gwl); try okg.
Lemma parse_index_type_spec N : spec false N 0 d1 d0 gW parse_index_type.
Proof. unfold parse_index_type. start. go. Qed.
Hint Resolve parse_index_type_spec : spec.
Lemma parse_index_options_spec n l : Forall (ok false) (atoms l) -> spec false n (gW l) d0 d0 gW (parse_index_options n l).
Proof. intros Hl. unfold parse_index_options. eapply loop0_spec; auto. intros x Hx. start. go. Qed.
Lemma parse_index_col_spec N : spec false N 0 d1 d0 gW parse_index_col.
Proof.
  unfold parse_index_col. start. do 2 (eapply step0; [sspec|eassumption|bnd|intro_step]).
  eapply (step0_inl _ _ _ false 0 d0 gW); [eassumption|intros|intro_step; go]. destruct a0; norm; [|go].
  eapply step0; [eapply recovered_spec with (e0 := d0) (g := gW); [eapply spec_d0; sspec|gwx; lia|intros; okg]|eassumption|bnd|intro_step].
  go.
Qed.
Hint Resolve parse_index_col_spec : spec.
Lemma parse_index_cols_spec n : spec false n 0 d1 d0 gW (parse_index_cols n).
Proof. unfold parse_index_cols. start. go. Qed.
Lemma parse_cols_spec n : spec false n 0 d1 d0 gW (parse_cols n).
Proof. unfold parse_cols. start. go. Qed.
Lemma opt_name_spec N : spec false N 0 d0 d0 gW opt_name.
Proof. unfold opt_name. start. go. Qed.
Hint Resolve parse_index_cols_spec parse_cols_spec opt_name_spec : spec.
Lemma parse_constraint_spec N : spec false N 0 d0 d0 gW parse_constraint.
Proof. unfold parse_constraint. start. go. Qed.
Hint Resolve parse_constraint_spec : spec.
Lemma parse_fk_on_wp E S1 on S : cx E S -> seg ["ON"] S1 on S -> wspan src on ->
  wp (parse_fk_on on) (post S false 0 d1 d0 gW) (fpost S) S.
Proof.
  intros C0 G0 V0. pose proof (cx_refl _ (c_wf _ _ C0)) as C. unfold parse_fk_on. apply step_token.
  eapply (step0_inl _ _ (Atoms_as LFkOn) false 0 d1 (@gW _ _ (Atoms_as LFkOn))); [eassumption|intros; go|intro_step]. apply step_token.
  eapply (step0_inl _ _ (Atoms_as LFkAction) false 0 d1 (@gW _ _ (Atoms_as LFkAction))); [eassumption|intros; go|intro_step]. destruct a, a0. go.
Qed.
Lemma parse_add_foreign_key_spec n s c : wspan src s -> Forall (ok false) (atoms c) -> spec false n (gW c) d1 d0 gW (parse_add_foreign_key n s c).
Proof.
  intros. unfold parse_add_foreign_key. start. do 7 (eapply step0; [sspec|eassumption|bnd|intro_step]).
  eapply step0; [eapply loop_nil_spec with (b := false) (N := n)|eassumption|bnd|intro_step]; [|ntac|].
  { intros l Hl. start. eapply step_skip_kw; [eassumption|]. intros S9 o C9 M9 A9 O9 G9. destruct o as [on|]; norm; [|go].
    apply wp_bind. eapply wp_conseq; [eapply parse_fk_on_wp; [exact C9|exact G9|vsp]| |intros S'; now apply fpost_trans].
    intros x S10 (C10 & M10 & N10 & A10 & O10). pose proof (cx_trans _ _ _ C9 C10). norm. apply wp_ret. fin. }
  go.
Qed.
Lemma parse_index_kind_spec N k : In k ["FULLTEXT"; "SPATIAL"; "UNIQUE"] -> @spec _ _ (Atoms_as LIndex) false N 0 d1 d0 (@gW _ _ (Atoms_as LIndex)) (parse_index_kind k).
Proof. intros H. unfold parse_index_kind. cbn [In] in H. repeat destruct H as [<-|H]; try (start; go); destruct H. Qed.
Hint Extern 1 (@spec _ _ _ _ _ _ _ _ _ (parse_index_kind _)) => (apply parse_index_kind_spec; cbn [In]; tauto) : spec.
Lemma parse_add_index_spec n s c : wspan src s -> Forall (ok false) (atoms c) ->
  forall S, wf S -> m S < n ->
  is_kw (tk S) "PRIMARY" || is_kw (tk S) "INDEX" || is_kw (tk S) "KEY" || is_kw (tk S) "FULLTEXT"
          || is_kw (tk S) "UNIQUE" || is_kw (tk S) "SPATIAL" = true ->
  wp (parse_add_index n s c) (post S false (gW c) d1 d0 gW) (fpost S) S.
Proof.
  intros. unfold parse_add_index. pose proof (cx_refl _ H1) as C. apply step_token.
  eapply (step0_inl _ _ (Atoms_as LIndex) false 0 d1 (@gW _ _ (Atoms_as LIndex))); [eassumption|intros|intro_step].
  { destr (is_kw (tk S) "PRIMARY"); [go|]. destr (is_kw (tk S) "INDEX"); [clear H3; cbn [orb]; go|]. destr (is_kw (tk S) "KEY"); [clear H3; cbn [orb]; go|]. cbn [orb] in *.
    assert (G : forall k, In k ["FULLTEXT"; "SPATIAL"; "UNIQUE"] ->
      wp (parse_index_kind k) (@post _ _ (Atoms_as LIndex) S false 0 d1 d0 (@gW _ _ (Atoms_as LIndex))) (fpost S) S).
    { intros k Hk. now apply (parse_index_kind_spec n k Hk). }
    destr (is_kw (tk S) "FULLTEXT"); [apply G; cbn [In]; tauto|].
    destr (is_kw (tk S) "UNIQUE"); [destr (is_kw (tk S) "SPATIAL"); apply G; cbn [In]; tauto|].
    cbn [orb] in *. rewrite H3. apply G. cbn [In]. tauto. }
  do 2 (eapply step0; [sspec|eassumption|bnd|intro_step]). apply step_token.
  eapply (step0_inl _ _ _ false 0 d0 gW); [eassumption|intros; go|intro_step].
  eapply step0; [sspec|eassumption|bnd|intro_step].
  eapply step0; [apply (parse_index_options_spec n); eassumption|eassumption|bnd|intro_step]. go.
Qed.

Section R.
Variable r : recs.
Context {K : recs_ok r}.
Lemma parse_add_column_spec s : wspan src s -> spec false (r_n r) 0 d1 d0 gW (parse_add_column r s).
Proof.
  intros. unfold parse_add_column. start. eapply step0; [sspec|eassumption|bnd|intro_step]. apply step_token.
  eapply (step0_inl _ _ _ false 0 d0 gW); [eassumption|intros; go|intro_step]. eapply step_dialect; [eassumption|].
  destruct a0; norm; [|go].
  match goal with |- wp (bind (if is_maria ?d then ?x else ?y) ?k) ?Q ?F ?S => 
    replace (if is_maria d then x else y) with (if negb (is_maria d) then y else x) by now destruct (is_maria d) end.
  eapply (step_feature _ FAddColumnIfNotExists); [eassumption|vsp|reflexivity|reflexivity|fmsg|intros]. go.
Qed.
Hint Resolve parse_add_column_spec : spec.
Lemma parse_add_alter_specification_spec : spec false (r_n r) 0 d1 d0 gW (parse_add_alter_specification r).
Proof.
  unfold parse_add_alter_specification. start. do 2 (eapply step0; [sspec|eassumption|bnd|intro_step]). apply step_token.
  destr (is_kw (tk S1) "FOREIGN").
  - eapply tail0; [apply parse_add_foreign_key_spec; [vsp|eassumption]|eassumption|bnd|intro_step]. fin.
  - destr (is_kw (tk S1) "PRIMARY" || is_kw (tk S1) "INDEX" || is_kw (tk S1) "KEY" || is_kw (tk S1) "FULLTEXT"
          || is_kw (tk S1) "UNIQUE" || is_kw (tk S1) "SPATIAL"); [|go].
    eapply wp_conseq; [apply parse_add_index_spec; [vsp|eassumption|apply C1|lia|exact Et]| |intros S'; now apply fpost_trans].
    intros x S2 (C2 & M2 & N2 & A2 & O2). assert (cx S S2) by (eapply cx_trans; eauto). norm. fin.
Qed.
Lemma parse_alter_column_action_spec : spec false (r_n r) 0 d1 d0 gW (parse_alter_column_action r).
Proof. unfold parse_alter_column_action. start. go. Qed.
Hint Resolve parse_add_alter_specification_spec parse_alter_column_action_spec : spec.
Lemma parse_alter_specification_spec : spec false (r_n r) 0 d1 d0 gW (parse_alter_specification r).
Proof. unfold parse_alter_specification. start. go. Qed.
Hint Resolve parse_alter_specification_spec : spec.
Lemma parse_alter_table_spec s o i : wspan src s -> Forall (ok false) (atoms o) -> Forall (ok false) (atoms i) ->
  spec false (r_n r) 0 d1 d0 gW (parse_alter_table r s o i).
Proof.
  intros. unfold parse_alter_table. start. do 3 (eapply step0; [sspec|eassumption|bnd|intro_step]). apply step_delim.
  eapply (step0 _ _ _ false (r_n r) 0); [eapply recovered_acc_spec|eassumption|bnd|intro_step].
  { change 0 with (@gW V (list (alter_specification expr)) _ []). eapply loop_acc_spec with (N := r_n r) (b := false); [|ntac|constructor].
    intros l Hl. start. do 2 (eapply step0; [sspec|eassumption|bnd|intro_step]). destruct a3; norm; ctl_fin. }
  assert (Ho : gW o = 0) by (destruct o; gwx; reflexivity). assert (Hi : gW i = 0) by (destruct i; gwx; reflexivity).
  go.
Qed.
Lemma parse_alter_spec : spec false (r_n r) 0 d1 d0 gW (parse_alter r).
Proof.
  unfold parse_alter. start. do 3 (eapply step0; [sspec|eassumption|bnd|intro_step]). apply step_token.
  destruct (is_kw _ _); [|go]. eapply tail0; [apply parse_alter_table_spec; [vsp|assumption|assumption]|eassumption|bnd|intro_step]. fin.
Qed.
End R.

(** ** Drop, truncate, rename *)
Lemma parse_drop_q_spec n s k : wspan src s -> spec false n 0 d1 d0 gW (parse_drop_q n s k).
Proof. intros. unfold parse_drop_q. start. go. Qed.
Lemma parse_drop_i_spec N s k : wspan src s -> spec false N 0 d1 d0 gW (parse_drop_i s k).
Proof. intros. unfold parse_drop_i. start. go. Qed.
Lemma parse_drop_index_spec n s : wspan src s -> spec false n 0 d1 d0 gW (parse_drop_index n s).
Proof.
  intros. unfold parse_drop_index. start. do 4 (eapply step0; [sspec|eassumption|bnd|intro_step]).
  eapply (step0_inl _ _ _ false 0 d0 gW); [eassumption|intros; go|intro_step].
  cbv zeta. eapply step_dialect; [eassumption|].
  assert (P : spv false (spn (mkDropIndex s a a0 a1 a3))).
  { change (spv false (jn (jn (jn (jn (spn s) (spn a)) (spn a0)) (spn a1)) (spn a3))).
    repeat apply spv_jn; (eapply spv_of; [typeclasses eauto|first [eassumption|okg]]). }
  assert (P' : spn (mkDropIndex s a a0 a1 a3) <> SNone) by some_.
  destruct a3 as [on|]; cbn [is_some negb andb].
  - change (bind (Ret tt) ?f) with (f tt). cbv beta.
    match goal with |- wp (bind (if is_postgresql ?d then ?x else ?y) ?k) ?Q ?F ?S => 
      replace (if is_postgresql d then x else y) with (if negb (is_postgresql d) then y else x) by now destruct (is_postgresql d) end.
    eapply (step_feature_at _ false FDropIndexOn); [eassumption|exact P|exact P'|reflexivity|reflexivity|fmsg|discriminate|intros]. go.
  - match goal with |- wp (bind (if is_maria ?d then ?x else ?y) ?k) ?Q ?F ?S => 
      replace (if is_maria d then x else y) with (if negb (is_maria d) then y else x) by now destruct (is_maria d) end.
    eapply (step_feature_at _ false FDropIndexNoOn); [eassumption|exact P|exact P'|reflexivity|reflexivity|fmsg|discriminate|intros].
    change (bind (Ret tt) ?f) with (f tt). cbv beta. go.
Qed.
Hint Resolve parse_drop_q_spec parse_drop_i_spec parse_drop_index_spec : spec.
Lemma parse_drop_spec n : spec false n 0 d1 d0 gW (parse_drop n).
Proof. unfold parse_drop. start. unfold todo. go. Qed.
Lemma parse_truncate_table_spec n : spec false n 0 d1 d0 gW (parse_truncate_table n).
Proof. unfold parse_truncate_table. start. go. Qed.
Lemma parse_rename_table_spec n : spec false n 0 d1 d0 gW (parse_rename_table n).
Proof.
  unfold parse_rename_table. start. do 2 (eapply step0; [sspec|eassumption|bnd|intro_step]).
  eapply step0; [eapply (sep_list_spec _ _ false n) with (d := d1); [start; go|ntac]|eassumption|bnd|intro_step]. go.
Qed.

(** ** Delete, update, insert *)
Section R2.
Variable r : recs.
Context {K : recs_ok r}.
Lemma parse_returning_spec : spec false (r_n r) 0 d0 d0 gW (parse_returning r).
Proof. unfold parse_returning. start. go. Qed.
Hint Resolve parse_returning_spec : spec.
Lemma parse_delete_spec : spec false (r_n r) 0 d1 d0 gW (parse_delete r).
Proof.
  unfold parse_delete. start. do 3 (eapply step0; [sspec|eassumption|bnd|intro_step]).
  eapply (step0_inl _ _ _ false 0 d0 gW); [eassumption|intros; go|intro_step]. destruct a2 as [[f tb] us]; norm.
  eapply step0; [sspec|eassumption|bnd|intro_step].
  eapply (step0_inl _ _ _ false (gW us) d0 gW); [eassumption|intros|intro_step; go].
  destruct a2; norm; [|go]. destruct us; norm; go.
Qed.
Lemma parse_column_path_spec n : spec false n 0 d1 d0 gW (parse_column_path n).
Proof.
  unfold parse_column_path. start. eapply step0; [sspec|eassumption|bnd|intro_step].
  eapply tail0; [eapply loop0_spec with (b := false) (N := n)|eassumption|bnd|intro_step; fin]; [|ntac|okg].
  intros l Hl; start; go.
Qed.
Hint Resolve parse_column_path_spec : spec.
Lemma parse_update_spec : spec false (r_n r) 0 d1 d0 gW (parse_update r).
Proof.
  unfold parse_update. start. do 2 (eapply step0; [sspec|eassumption|bnd|intro_step]).
  eapply (step0 _ _ _ false (r_n r - 1) 0); [sspec|eassumption|bnd|intro_step].
  eapply step0; [sspec|eassumption|bnd|intro_step].
  eapply step0; [eapply (sep_list_spec _ _ false (r_n r)) with (d := d1); [start; go|ntac]|eassumption|bnd|intro_step].
  do 2 (eapply step0; [sspec|eassumption|bnd|intro_step]). eapply step_dialect; [eassumption|].
  destruct a5 as [[rs rl]|]; norm; [|go].
  eapply (step_feature _ FUpdateReturning); [eassumption|vsp|reflexivity|reflexivity|fmsg|intros]. go.
Qed.
(** The flags REPLACE does not have, with their use. *)
Definition Atoms_flags (i : bool) (l : list tagged) : Atoms unit := fun _ => if i then [] else flag_uses l.
Lemma check_insert_flags_spec N i l : Forall (ok false) (atoms l) -> @spec V _ (Atoms_flags i l) false N 0 d0 d0 (@gW V _ (Atoms_flags i l)) (check_insert_flags i l).
Proof.
  assert (G : forall E S l, cx E S -> (i = false -> Forall (ok false) (flag_uses l)) ->
    @post V _ (Atoms_flags i l) E false 0 d0 d0 (@gW V _ (Atoms_flags i l)) tt S).
  { intros E S l' C O. pose proof (cx_A _ _ C). pose proof (c_m _ _ C). apply post0; [exact C|unfold d0; lia| |].
    - unfold gW, atoms, Atoms_flags. destruct i; [change (W []) with 0|rewrite flag_uses_W]; lia.
    - unfold atoms, Atoms_flags. destruct i; [constructor|auto]. }
  induction l as [|f l IH]; intros H; cbn [check_insert_flags]; start.
  { apply wp_ret. apply G; [assumption|]. intros _. constructor. }
  rewrite atoms_cons in H. apply Forall_app in H as [H1 H2]. specialize (IH H2).
  assert (T : forall S', cx S S' -> (i = false -> Forall (ok false) (flag_uses [f])) ->
     wp (check_insert_flags i l) (@post V _ (Atoms_flags i (f :: l)) S false 0 d0 d0 (@gW V _ (Atoms_flags i (f :: l)))) (fpost S) S').
  { intros S' C' O. pose proof (c_m _ _ C'). eapply (tail0 _ (Atoms_flags i l)); [exact IH|exact C'|lia|]. intros [] S2 C2 _ _ O2. apply G; [exact C2|]. intros Ei. unfold flag_uses. cbn [flat_map].
    apply Forall_app. split; [specialize (O Ei); unfold flag_uses in O; cbn [flat_map] in O; now rewrite app_nil_r in O|]. unfold atoms, Atoms_flags in O2. now rewrite Ei in O2. }
  destruct (String.eqb (tag f) "HighPriority" || String.eqb (tag f) "Ignore") eqn:Ef; cbn [andb].
  2: { apply T; [assumption|]. intros _. unfold flag_uses. cbn [flat_map]. rewrite Ef. constructor. }
  destruct i; cbn [negb].
  { apply T; [assumption|discriminate]. }
  eapply (step_feature _ FReplaceFlag false); [eassumption|eapply tag_ok; eassumption|reflexivity|reflexivity|fmsg|].
  intros S' C' _ _ _ O. apply T; [assumption|]. intros _. unfold flag_uses. cbn [flat_map]. rewrite Ef, app_nil_r. exact (O false).
Qed.
Lemma parse_set_pair_spec : spec false (r_n r) 0 d1 d0 gW (parse_set_pair r).
Proof. unfold parse_set_pair. start. go. Qed.
Hint Resolve check_insert_flags_spec parse_set_pair_spec : spec.
(** The source of the rows, with the uses of what is not allowed. *)
Definition Atoms_source (c : list ident) : Atoms (option (select expr stmt) * option (span * list (list expr)) * option (set_pairs expr)) :=
  fun x => atoms x ++ match x with (s, v, p) => source_uses c v s p end.
Lemma source_W c x : W (@atoms _ (Atoms_source c) x) = W (atoms x).
Proof. unfold Atoms_source, atoms at 1. destruct x as [[s v] p]. rewrite W_app, W_source_uses. lia. Qed.
Lemma parse_insert_source_spec c : Forall (ok false) (atoms c) -> @spec V _ (Atoms_source c) false (r_n r) 0 d0 d0 (@gW V _ (Atoms_source c)) (parse_insert_source r c).
Proof.
  assert (G : forall E S s v p, cx E S -> AA E + gW (s, v, p) <= AA S + 0 -> Forall (ok false) (atoms (s, v, p)) -> Forall (ok false) (source_uses c v s p) ->
    @post V _ (Atoms_source c) E false 0 d0 d0 (@gW V _ (Atoms_source c)) (s, v, p) S).
  { intros E S s v p C A O O'. apply post0; [exact C|pose proof (c_m _ _ C); mgoal|unfold gW; rewrite source_W; exact A|]. apply ok_app; assumption. }
  intros Hc. unfold parse_insert_source. start. apply step_token.
  destr (is_kw (tk S) "SELECT").
  { eapply step0; [sspec|eassumption|bnd|intro_step]. apply wp_ret. apply G; [assumption|gwx; gwl|okg|constructor]. }
  destr (is_kw (tk S) "VALUE" || is_kw (tk S) "VALUES").
  - eapply consume0; [eassumption|live|intros; norm].
    eapply step0; [eapply (sep_list_spec _ _ false (r_n r)) with (d := d1); [start; go|ntac]|eassumption|bnd|intro_step]. apply wp_ret. apply G; [assumption|gwx; gwl|okg|constructor].
  - destr (is_kw (tk S) "SET").
    + do 2 (eapply step0; [sspec|eassumption|bnd|intro_step]).
      eapply (step_err_at_frag _ false FSetColumns); [eassumption| |reflexivity|reflexivity|vsp|discriminate|].
      * eapply spv_of; [|eassumption]; typeclasses eauto.
      * intros S' C' M' A' T' Ou. apply wp_ret. apply G; [assumption|gwx; gwl|okg|exact (Ou false)].
    + eapply step_expected; [eassumption|]. intros S' C' _ M' N' A' _ _. apply wp_compat. intros Kc. apply wp_ret.
      apply G; [assumption|change (gW (None, None, None)) with 0; lia|constructor|]. constructor; [|constructor]. right. eapply finally_error; [exact Kc|lia].
Qed.
Lemma parse_conflict_target_spec n : spec false n 0 d0 d0 gW (parse_conflict_target n).
Proof. unfold parse_conflict_target. start. go. Qed.
Lemma parse_conflict_action_spec : spec false (r_n r) 0 d1 d0 gW (parse_conflict_action r).
Proof.
  unfold parse_conflict_action. start. eapply step0; [sspec|eassumption|bnd|intro_step]. apply step_token.
  destr (is_kw (tk S0) "NOTHING"); [go|]. destr (is_kw (tk S0) "UPDATE"); [|go].
  eapply step0; [sspec|eassumption|bnd|intro_step].
  eapply step0; [eapply (sep_list_spec _ _ false (r_n r)) with (d := d1); [start; go|ntac]|eassumption|bnd|intro_step]. go.
Qed.
Hint Resolve parse_insert_source_spec parse_conflict_target_spec parse_conflict_action_spec : spec.
(** The atoms of the two clauses, with the use of the feature. *)
Definition Atoms_on : Atoms (option (set_pairs expr) * option (on_conflict expr)) :=
  fun x => atoms x ++ used FOnDuplicate (spn (fst x)).
Lemma on_W x : W (@atoms _ Atoms_on x) = W (atoms x).
Proof. unfold Atoms_on, atoms at 1. rewrite W_app, W_used. lia. Qed.
Lemma parse_insert_on_spec : @spec V _ Atoms_on false (r_n r) 0 d0 d0 (@gW V _ Atoms_on) (parse_insert_on r).
Proof.
  assert (G : forall E S x, cx E S -> AA E + gW x <= AA S + 0 -> Forall (ok false) (atoms x) -> Forall (ok false) (used FOnDuplicate (spn (fst x))) ->
    @post V _ Atoms_on E false 0 d0 d0 (@gW V _ Atoms_on) x S).
  { intros E S x C A O O'. apply post0; [exact C|pose proof (c_m _ _ C); mgoal|unfold gW; rewrite on_W; exact A|]. apply ok_app; assumption. }
  unfold parse_insert_on. start. apply step_token. destr (is_kw (tk S) "ON").
  2:{ apply wp_ret. apply G; [assumption|gwx; lia|okg|constructor]. }
  eapply step0; [sspec|eassumption|bnd|intro_step]. apply step_token. destr (is_kw (tk S0) "DUPLICATE").
  - eapply step0; [sspec|eassumption|bnd|intro_step]. cbv zeta.
    eapply step0; [sspec|eassumption|bnd|intro_step]. eapply step_dialect; [eassumption|].
    eapply (step_feature_at _ false FOnDuplicate); [eassumption| | |reflexivity|reflexivity|fmsg|discriminate|intros].
    + apply spv_jn; eapply spv_of; [typeclasses eauto| |typeclasses eauto|eassumption]. okg.
    + some_.
    + apply wp_ret. apply G; [assumption|gwx; gwl|okg|auto].
  - destr (is_kw (tk S0) "CONFLICT"); [|go]. do 3 (eapply step0; [sspec|eassumption|bnd|intro_step]). cbv zeta.
    eapply step_dialect; [eassumption|].
    eapply (step_feature_at _ false FOnConflict); [eassumption| | |reflexivity|reflexivity|fmsg|discriminate|intros].
    + change (spv false (jn (jn (spn (join a a0)) (spn a1)) (spn a2))).
      repeat apply spv_jn; (eapply spv_of; [typeclasses eauto|first [eassumption|okg]]).
    + some_.
    + apply wp_ret. apply G; [assumption|gwx; gwl|okg|constructor].
Qed.
Lemma parse_insert_replace_spec : spec false (r_n r) 0 d1 d0 gW (parse_insert_replace r).
Proof.
  unfold parse_insert_replace. start. apply step_token.
  eapply (step0_inl _ _ _ false 0 d1 gW); [eassumption|intros; go|intro_step]. cbv zeta.
  eapply step0; [sspec|eassumption|bnd|intro_step].
  eapply (step0 _ _ (Atoms_flags _ _)); [apply check_insert_flags_spec; eassumption|eassumption|bnd|]. intros u Su Cu Mu Au Ou.
  assert (Au' : AA S1 <= AA Su) by lia.
  assert (Or : Forall (ok false) (replace_flags a a0)).
  { unfold replace_flags. destruct (String.eqb (tag a) "Replace") eqn:Er; [|constructor]. apply String.eqb_eq in Er. unfold atoms, Atoms_flags in Ou. rewrite Er in Ou. exact Ou. }
  clear Au Ou. do 3 (eapply step0; [sspec|eassumption|bnd|intro_step]).
  eapply (step0_inl _ _ _ false 0 d0 gW); [eassumption|intros; go|intro_step].
  eapply (step0 _ _ (Atoms_source _)); [apply parse_insert_source_spec; eassumption|eassumption|bnd|]. intros x Sy Cy My Ay Oy. unfold gW in Ay. rewrite source_W in Ay. fold (gW x) in Ay. apply Forall_app in Oy as [Oy Os].
  destruct x as [[? ?] ?]; norm.
  eapply (step0 _ _ Atoms_on); [apply parse_insert_on_spec|eassumption|bnd|].
  intros x Sx Cx Mx Ax Ox. unfold gW in Ax. rewrite on_W in Ax. fold (gW x) in Ax. apply Forall_app in Ox as [Ox Ox'].
  destruct x as [? ?]; cbn [fst] in Ox'; norm. go.
Qed.
End R2.
End Fns.
#[export] Hint Resolve parse_alter_spec parse_drop_spec parse_truncate_table_spec parse_rename_table_spec parse_delete_spec parse_update_spec parse_insert_replace_spec : spec.
