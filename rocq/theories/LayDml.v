(** C56: the functions of Dml.v. *)
From Verif Require Export LayDrop Dml.
Local Open Scope string_scope.
Local Open Scope list_scope.

Section R.
Context {L : lenv}.
Variable r : recs.
Context {K : rrel r}.
Lemma parse_returning_l : pr rm (parse_returning r) (parse_returning r).
Proof. unfold parse_returning. lgo. Qed.
Hint Resolve parse_returning_l : lspec.
Lemma parse_delete_l : pr rm (parse_delete r) (parse_delete r).
Proof. unfold parse_delete. lgo. Qed.
Hint Resolve parse_delete_l : lspec.
Lemma parse_column_path_l n : pr rm (parse_column_path n) (parse_column_path n).
Proof. unfold parse_column_path. lgo. Qed.
Hint Resolve parse_column_path_l : lspec.
Lemma parse_update_l : pr rm (parse_update r) (parse_update r).
Proof. unfold parse_update. lgo. Qed.
Hint Resolve parse_update_l : lspec.
Lemma check_insert_flags_l b l : forall l', l' = respan lf l -> pr rm (check_insert_flags b l) (check_insert_flags b l').
Proof. induction l as [|x l IH]; intros l' ->; [|destruct x as [c s]]; lnm; cbn [check_insert_flags tag tag_span]; lgo. Qed.
Hint Resolve check_insert_flags_l : lspec.
Lemma parse_set_pair_l : pr rm (parse_set_pair r) (parse_set_pair r).
Proof. unfold parse_set_pair. lgo. Qed.
Hint Resolve parse_set_pair_l : lspec.
Lemma parse_insert_source_l (columns columns' : list ident) : columns' = respan lf columns -> pr rm (parse_insert_source r columns) (parse_insert_source r columns').
Proof. intros ->. unfold parse_insert_source. lgo. Qed.
Hint Resolve parse_insert_source_l : lspec.
Lemma parse_conflict_target_l n : pr rm (parse_conflict_target n) (parse_conflict_target n).
Proof. unfold parse_conflict_target. lgo. Qed.
Hint Resolve parse_conflict_target_l : lspec.
Lemma parse_conflict_action_l : pr rm (parse_conflict_action r) (parse_conflict_action r).
Proof. unfold parse_conflict_action. lgo. Qed.
Hint Resolve parse_conflict_action_l : lspec.
Lemma parse_insert_on_l : pr rm (parse_insert_on r) (parse_insert_on r).
Proof. unfold parse_insert_on. lgo. Qed.
Hint Resolve parse_insert_on_l : lspec.
Lemma parse_insert_replace_l : pr rm (parse_insert_replace r) (parse_insert_replace r).
Proof. unfold parse_insert_replace. lgo. Qed.
Hint Resolve parse_insert_replace_l : lspec.
End R.
#[export] Hint Resolve parse_returning_l parse_delete_l parse_column_path_l parse_update_l check_insert_flags_l parse_set_pair_l parse_insert_source_l parse_conflict_target_l parse_conflict_action_l parse_insert_on_l parse_insert_replace_l : lspec.
