(** C56: the functions of Alter.v. *)
From Verif Require Export LayCreate Alter.
Local Open Scope string_scope.
Local Open Scope list_scope.

Section R.
Context {L : lenv}.
Variable r : recs.
Context {K : rrel r}.
Lemma parse_index_type_l : pr rm parse_index_type parse_index_type.
Proof. unfold parse_index_type. lgo. Qed.
Hint Resolve parse_index_type_l : lspec.
Lemma parse_index_options_l n (l l' : list index_option) : l' = respan lf l -> pr rm (parse_index_options n l) (parse_index_options n l').
Proof. intros ->. unfold parse_index_options. lgo. Qed.
Hint Resolve parse_index_options_l : lspec.
Lemma parse_index_col_l : pr rm parse_index_col parse_index_col.
Proof. unfold parse_index_col. lgo. Qed.
Hint Resolve parse_index_col_l : lspec.
Lemma parse_index_cols_l n : pr rm (parse_index_cols n) (parse_index_cols n).
Proof. unfold parse_index_cols. lgo. Qed.
Hint Resolve parse_index_cols_l : lspec.
Lemma parse_cols_l n : pr rm (parse_cols n) (parse_cols n).
Proof. unfold parse_cols. lgo. Qed.
Hint Resolve parse_cols_l : lspec.
Lemma opt_name_l : pr rm opt_name opt_name.
Proof. unfold opt_name. lgo. Qed.
Hint Resolve opt_name_l : lspec.
Lemma parse_constraint_l : pr rm parse_constraint parse_constraint.
Proof. unfold parse_constraint. lgo. Qed.
Hint Resolve parse_constraint_l : lspec.
Lemma parse_fk_on_l (on on' : span) : on' = respan lf on -> pr rm (parse_fk_on on) (parse_fk_on on').
Proof. intros ->. unfold parse_fk_on. lgo. Qed.
Hint Resolve parse_fk_on_l : lspec.
Lemma parse_add_foreign_key_l n (add_span add_span' : span) (constraint constraint' : option (span * option ident)) : add_span' = respan lf add_span -> constraint' = respan lf constraint -> pr rm (parse_add_foreign_key n add_span constraint) (parse_add_foreign_key n add_span' constraint').
Proof. intros -> ->. unfold parse_add_foreign_key. lgo. Qed.
Hint Resolve parse_add_foreign_key_l : lspec.
Lemma parse_index_kind_l (k : string) : pr rm (parse_index_kind k) (parse_index_kind k).
Proof. unfold parse_index_kind. lgo. Qed.
Hint Resolve parse_index_kind_l : lspec.
Lemma parse_add_index_l n (add_span add_span' : span) (constraint constraint' : option (span * option ident)) : add_span' = respan lf add_span -> constraint' = respan lf constraint -> pr rm (parse_add_index n add_span constraint) (parse_add_index n add_span' constraint').
Proof. intros -> ->. unfold parse_add_index. lgo. Qed.
Hint Resolve parse_add_index_l : lspec.
Lemma parse_add_column_l (add_span add_span' : span) : add_span' = respan lf add_span -> pr rm (parse_add_column r add_span) (parse_add_column r add_span').
Proof. intros ->. unfold parse_add_column. lgo. Qed.
Hint Resolve parse_add_column_l : lspec.
Lemma parse_add_alter_specification_l : pr rm (parse_add_alter_specification r) (parse_add_alter_specification r).
Proof. unfold parse_add_alter_specification. lgo. Qed.
Hint Resolve parse_add_alter_specification_l : lspec.
Lemma parse_alter_column_action_l : pr rm (parse_alter_column_action r) (parse_alter_column_action r).
Proof. unfold parse_alter_column_action. lgo. Qed.
Hint Resolve parse_alter_column_action_l : lspec.
Lemma parse_alter_specification_l : pr rm (parse_alter_specification r) (parse_alter_specification r).
Proof. unfold parse_alter_specification. lgo. Qed.
Hint Resolve parse_alter_specification_l : lspec.
Lemma parse_alter_table_l (alter_span alter_span' : span) (online online' : option span) (ignore ignore' : option span) : alter_span' = respan lf alter_span -> online' = respan lf online -> ignore' = respan lf ignore -> pr rm (parse_alter_table r alter_span online ignore) (parse_alter_table r alter_span' online' ignore').
Proof. intros -> -> ->. unfold parse_alter_table. lgo. Qed.
Hint Resolve parse_alter_table_l : lspec.
Lemma parse_alter_l : pr rm (parse_alter r) (parse_alter r).
Proof. unfold parse_alter. lgo. Qed.
Hint Resolve parse_alter_l : lspec.
End R.
#[export] Hint Resolve parse_index_type_l parse_index_options_l parse_index_col_l parse_index_cols_l parse_cols_l opt_name_l parse_constraint_l parse_fk_on_l parse_add_foreign_key_l parse_index_kind_l parse_add_index_l parse_add_column_l parse_add_alter_specification_l parse_alter_column_action_l parse_alter_specification_l parse_alter_table_l parse_alter_l : lspec.
