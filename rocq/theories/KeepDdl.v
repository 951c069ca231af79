(** C53, C54, C55: the functions of src/create.rs, src/alter.rs, src/drop.rs, src/truncate.rs, src/rename.rs, src/delete.rs, src/update.rs and src/insert_replace.rs. *)
From Verif Require Export KeepExpr Create Alter Drop Dml.
Local Open Scope string_scope.
Local Open Scope list_scope.

Section Fns.
Context {E : kenv}.
Lemma parse_if_not_exists_k : keeps_ parse_if_not_exists.
Proof. unfold parse_if_not_exists. kgo. Qed.
Lemma parse_if_exists_k : keeps_ parse_if_exists.
Proof. unfold parse_if_exists. kgo. Qed.
Hint Resolve parse_if_not_exists_k parse_if_exists_k : kspec.
Lemma light_idents (l : list ident) : kkind <> KNames -> kW l = 0.
Proof. intros H. induction l as [|p l IH]; [reflexivity|]. rewrite kW_cons, IH, light_ident by exact H. reflexivity. Qed.
Lemma skip_identifiers_k n : kkind <> KNames -> keeps_ (skip_identifiers n).
Proof. intros H. unfold skip_identifiers. kgo. rewrite light_idents in * by exact H. lia. Qed.
(** Where names are of interest there is no CONSTRAINT. *)
Lemma constraint_k B t c (g : B -> nat -> Prop) (k : span -> prog B) : kkind = KNames -> kp t c g (bind (consume_keyword "CONSTRAINT") k).
Proof.
  intros H. unfold consume_keyword. apply kp_assoc, kp_token. intros T. destruct t; try apply kp_expected_failure.
  destruct (kw_eqb _ _) eqn:Ek; [|apply kp_expected_failure]. unfold tame in T. rewrite H in T. cbn [is_kw] in T. rewrite Ek in T. discriminate.
Qed.
Lemma kkind_dec : kkind = KNames \/ kkind <> KNames.
Proof. destruct kkind; auto; right; discriminate. Qed.
Lemma parse_create_constraint_definition_k n : keeps_ (parse_create_constraint_definition n).
Proof.
  intros t. unfold parse_create_constraint_definition. destruct kkind_dec as [H|H].
  - now apply constraint_k.
  - pose proof (skip_identifiers_k n H) as Sk. kgo. all: rewrite !light_ident in * by exact H; lia.
Qed.
Hint Resolve parse_create_constraint_definition_k : kspec.
Lemma parse_param_direction_k : keeps_ parse_param_direction.
Proof. unfold parse_param_direction. kgo. Qed.
Hint Resolve parse_param_direction_k : kspec.
(** Where there is no [$$], no such body. *)
Lemma skip_dollar_body_k n : kfun = Some false -> keeps_ (skip_dollar_body n).
Proof.
  intros F t. unfold skip_dollar_body, consume_token at 1. apply kp_assoc, kp_token. rewrite F. unfold tame. intros T.
  destruct (tok_eqb t TDoubleDollar); [rewrite andb_false_r in T; discriminate|]. apply kp_expected_failure.
Qed.
Lemma parse_characteristic_k n : keeps_ (parse_characteristic n).
Proof. unfold parse_characteristic. kgo. Qed.
Hint Resolve parse_characteristic_k : kspec.
Lemma parse_index_column_k : keeps_ parse_index_column.
Proof. unfold parse_index_column. kgo. Qed.
Hint Resolve parse_index_column_k : kspec.
Lemma create_table_head_k n t : kp t 0 (gfine uW) (create_table_head n).
Proof. unfold create_table_head. kgo. Qed.
Lemma parse_table_option_k n l t c : c <= kW l -> kp t c (gctl uW) (parse_table_option n l).
Proof. intros L. unfold parse_table_option. kgo. Qed.
Lemma parse_create_option_k : keeps_ parse_create_option.
Proof. unfold parse_create_option. kgo. Qed.
Hint Resolve parse_create_option_k : kspec.
(** src/alter.rs, src/drop.rs *)
Lemma parse_index_type_k : keeps_ parse_index_type.
Proof. unfold parse_index_type. kgo. Qed.
Hint Resolve parse_index_type_k : kspec.
Lemma parse_index_options_k n l t c : c <= kW l -> kp t c uW (parse_index_options n l).
Proof. intros L. unfold parse_index_options. kgo. Qed.
Lemma parse_index_col_k : keeps_ parse_index_col.
Proof. unfold parse_index_col. kgo. Qed.
Hint Resolve parse_index_col_k : kspec.
Lemma parse_index_cols_k n : keeps_ (parse_index_cols n).
Proof. unfold parse_index_cols. kgo. Qed.
Lemma parse_cols_k n : keeps_ (parse_cols n).
Proof. unfold parse_cols. kgo. Qed.
Lemma opt_name_k : keeps_ opt_name.
Proof. unfold opt_name. kgo. Qed.
Hint Resolve parse_index_cols_k parse_cols_k opt_name_k : kspec.
Lemma parse_constraint_k : keeps_ parse_constraint.
Proof. unfold parse_constraint. kgo. Qed.
Hint Resolve parse_constraint_k : kspec.
Lemma parse_constraint_none t : kp t 0 (fun _ n => n = 0) parse_constraint.
Proof.
  destruct kkind_dec as [H|H].
  - unfold parse_constraint, skip_keyword. apply kp_assoc, kp_token. intros T. unfold tame in T. rewrite H in T. destruct (is_kw t "CONSTRAINT"); [discriminate|].
    apply (kp_ret _ t 0 (fun _ n => n = 0)). reflexivity.
  - eapply kp_conseq; [apply parse_constraint_k|]. intros [[s [i|]]|] n L; unfold uW in L; knorm; rewrite ?light_ident in L by exact H; try lia.
Qed.
Lemma parse_fk_on_k s : keeps_ (parse_fk_on s).
Proof. unfold parse_fk_on. kgo. Qed.
Hint Resolve parse_fk_on_k : kspec.
Lemma parse_add_foreign_key_k n s x t c : c <= 0 -> kp t c uW (parse_add_foreign_key n s x).
Proof. intros L. unfold parse_add_foreign_key. kgo. Qed.
Lemma parse_index_kind_k k : keeps_ (parse_index_kind k).
Proof. unfold parse_index_kind. kgo. Qed.
Hint Resolve parse_index_kind_k : kspec.
Lemma parse_add_index_k n s x t c : c <= 0 -> kp t c uW (parse_add_index n s x).
Proof.
  intros L. unfold parse_add_index. kgo. all: first [apply kp_err_here|idtac].
  all: replace (c + n0 + n1 + n2 + n3 + n4) with ((c + n0 + n1 + n2 + n4) + n3) by lia.
  all: eapply kp_frame; [apply parse_index_options_k; eassumption|kintro; kgo].
Qed.
Lemma parse_drop_q_k n s k : keeps_ (parse_drop_q n s k).
Proof. unfold parse_drop_q. kgo. Qed.
Lemma parse_drop_i_k s k : keeps_ (parse_drop_i s k).
Proof. unfold parse_drop_i. kgo. Qed.
Lemma parse_drop_index_k n s : keeps_ (parse_drop_index n s).
Proof. unfold parse_drop_index. kgo. Qed.
Hint Resolve parse_drop_q_k parse_drop_i_k parse_drop_index_k : kspec.
Lemma parse_drop_k n : keeps_ (parse_drop n).
Proof. unfold parse_drop. kgo. all: apply kp_err_here'. Qed.
Lemma parse_truncate_table_k n : keeps_ (parse_truncate_table n).
Proof. unfold parse_truncate_table. kgo. Qed.
Lemma parse_rename_table_k n : keeps_ (parse_rename_table n).
Proof. unfold parse_rename_table. kgo. klist. Qed.
Lemma parse_column_path_k n : keeps_ (parse_column_path n).
Proof. unfold parse_column_path. kgo. Qed.
Hint Resolve parse_column_path_k : kspec.
Lemma check_insert_flags_k i l : keeps_ (check_insert_flags i l).
Proof. induction l; cbn [check_insert_flags]; kgo. Qed.
Hint Resolve check_insert_flags_k : kspec.
Lemma parse_conflict_target_k n : keeps_ (parse_conflict_target n).
Proof. unfold parse_conflict_target. kgo. Qed.
Hint Resolve parse_conflict_target_k : kspec.
End Fns.
#[export] Hint Resolve parse_if_not_exists_k parse_if_exists_k parse_create_constraint_definition_k parse_param_direction_k parse_characteristic_k parse_index_column_k parse_create_option_k parse_index_type_k parse_index_col_k parse_index_cols_k parse_cols_k opt_name_k parse_constraint_k parse_fk_on_k parse_index_kind_k parse_drop_q_k parse_drop_i_k parse_drop_index_k parse_drop_k parse_truncate_table_k parse_rename_table_k parse_column_path_k check_insert_flags_k parse_conflict_target_k : kspec.

Section R.
Context {E : kenv}.
Variable r : recs.
Context {K : recs_keep r}.
Lemma parse_create_definition_k : keeps_ (parse_create_definition r).
Proof. unfold parse_create_definition. kgo. Qed.
Hint Resolve parse_create_definition_k : kspec.
Lemma parse_create_view_k s l t c : c <= kW l -> kp t c uW (parse_create_view r s l).
Proof. intros L. unfold parse_create_view. kgo. Qed.
Lemma parse_function_param_k : keeps_ (parse_function_param r).
Proof. unfold parse_function_param. kgo. Qed.
Hint Resolve parse_function_param_k : kspec.
Lemma parse_create_function_k s l t c : c <= kW l -> is_kw t "FUNCTION" = true -> tame kkind kfun t = true -> kp t c uW (parse_create_function r s l).
Proof.
  intros L F T. destruct kfun as [[|]|] eqn:Kf. { unfold tame in T. rewrite F in T. rewrite andb_false_r in T. discriminate. }
  - clear T F. pose proof (fun n => skip_dollar_body_k n Kf) as Sk. unfold parse_create_function. kgo.
  - pose proof (k_fun Kf) as Pg. unfold parse_create_function. kgo. all: congruence.
Qed.
Lemma parse_create_trigger_k s l t c : c <= kW l -> kp t c uW (parse_create_trigger r s l).
Proof. intros L. unfold parse_create_trigger. kgo. Qed.
Lemma parse_create_type_k s l t c : c <= kW l -> kp t c uW (parse_create_type r s l).
Proof. intros L. unfold parse_create_type. kgo. Qed.
Lemma parse_create_index_k s l t c : c <= kW l -> kp t c uW (parse_create_index r s l).
Proof. intros L. unfold parse_create_index. kgo. Qed.
Lemma parse_create_table_k s l t c : c <= kW l -> kp t c uW (parse_create_table r s l).
Proof.
  intros L. unfold parse_create_table. eapply kp_step; [kspec|kintro]. eapply (kp_bind _ _ _ _ _ uW).
  { apply kp_recovered_acc. eapply kp_conseq; [apply create_table_head_k|]. intros [x ok] n0 [H1 H2]. split; [exact H1|exact H2]. }
  kintro. unpair. eapply kp_step; [kspec|kintro]. apply kp_token. intros _. eapply (kp_bind _ _ _ _ _ uW); [solve [kgo]|kintro]. eapply kp_step; [kspec|kintro].
  apply kp_delim. intros d D. eapply kp_step; [eapply keeps_acc_nil; intros; now apply parse_table_option_k|kintro]. kgo.
Qed.
Lemma parse_create_k : keeps_ (parse_create r).
Proof.
  intros t. unfold parse_create. apply kp_span. intros s. eapply kp_step; [kspec|kintro]. eapply kp_step; [eapply keeps_acc_nil; intros; unpair; knm; kgo|kintro].
  apply kp_token. intros T. assert (L1 : 0 + n + n0 <= kW a0) by lia.
  apply if_k; [intros _; now apply parse_create_index_k|]. apply if_k; [intros _; now apply parse_create_table_k|]. apply if_k; [intros _; now apply parse_create_view_k|].
  apply if_k; [intros F; now apply parse_create_function_k|]. apply if_k; [intros _; now apply parse_create_trigger_k|]. apply if_k; [intros _; now apply parse_create_type_k|].
  apply kp_expected_failure'.
Qed.
(** src/alter.rs *)
Lemma parse_add_column_k s t c : c <= 0 -> kp t c uW (parse_add_column r s).
Proof. intros L. unfold parse_add_column. kgo. Qed.
Lemma parse_add_alter_specification_k : keeps_ (parse_add_alter_specification r).
Proof.
  intros t. unfold parse_add_alter_specification. eapply kp_step; [kspec|kintro]. eapply kp_bind; [apply parse_constraint_none|]. intros a0 n0 -> t1. apply kp_token. intros _.
  assert (L1 : 0 + n + 0 <= 0) by lia.
  apply if_k; [intros _; now apply parse_add_foreign_key_k|]. apply if_k; [intros _; now apply parse_add_index_k|]. apply if_k; [intros _; now apply parse_add_column_k|].
  apply kp_expected_failure'.
Qed.
Hint Resolve parse_add_alter_specification_k : kspec.
Lemma parse_alter_column_action_k : keeps_ (parse_alter_column_action r).
Proof. unfold parse_alter_column_action. kgo. Qed.
Hint Resolve parse_alter_column_action_k : kspec.
Lemma parse_alter_specification_k : keeps_ (parse_alter_specification r).
Proof. unfold parse_alter_specification. kgo. Qed.
Hint Resolve parse_alter_specification_k : kspec.
Lemma parse_alter_table_k s x y t c : c <= 0 -> kp t c uW (parse_alter_table r s x y).
Proof. intros L. unfold parse_alter_table. kgo. Qed.
Lemma parse_alter_k : keeps_ (parse_alter r).
Proof. unfold parse_alter. kgo. apply parse_alter_table_k. lia. Qed.
(** src/delete.rs, src/update.rs, src/insert_replace.rs *)
Lemma parse_returning_k : keeps_ (parse_returning r).
Proof. unfold parse_returning. kgo. Qed.
Hint Resolve parse_returning_k : kspec.
Lemma parse_delete_k : keeps_ (parse_delete r).
Proof.
  intros t. unfold parse_delete. do 3 (eapply kp_step; [kspec|kintro]).
  eapply (kp_bind _ _ _ _ _ uW); [solve [kgo]|kintro]. unpair. cbv beta iota. knm. eapply kp_step; [kspec|kintro].
  destruct a2; knm.
  - apply kp_assoc. destruct l; [|apply kp_err]. change (bind (Ret tt) ?k) with (k tt). cbv beta. apply kp_assoc. eapply kp_step; [kspec|kintro]. kgo.
  - change (bind (Ret l) ?k) with (k l). cbv beta. kgo.
Qed.
Lemma parse_update_k : keeps_ (parse_update r).
Proof. unfold parse_update. kgo. klist. Qed.
Lemma parse_set_pair_k : keeps_ (parse_set_pair r).
Proof. unfold parse_set_pair. kgo. Qed.
Hint Resolve parse_set_pair_k : kspec.
Lemma parse_insert_source_k l : keeps_ (parse_insert_source r l).
Proof. unfold parse_insert_source, err_at_frag. kgo. klist. Qed.
Hint Resolve parse_insert_source_k : kspec.
Lemma parse_conflict_action_k : keeps_ (parse_conflict_action r).
Proof. unfold parse_conflict_action. kgo. klist. Qed.
Hint Resolve parse_conflict_action_k : kspec.
Lemma parse_insert_on_k : keeps_ (parse_insert_on r).
Proof. unfold parse_insert_on. kgo. Qed.
Hint Resolve parse_insert_on_k : kspec.
Lemma parse_insert_replace_k : keeps_ (parse_insert_replace r).
Proof. unfold parse_insert_replace. kgo. Qed.
End R.
#[export] Hint Resolve parse_create_k parse_alter_k parse_delete_k parse_update_k parse_insert_replace_k : kspec.
