(** C56: the functions of Drop.v. *)
From Verif Require Export LayAlter Drop.
Local Open Scope string_scope.
Local Open Scope list_scope.

Section R.
Context {L : lenv}.
Variable r : recs.
Context {K : rrel r}.
Lemma parse_drop_q_l n (drop_span drop_span' : span) (k : string) : drop_span' = respan lf drop_span -> pr rm (parse_drop_q n drop_span k) (parse_drop_q n drop_span' k).
Proof. intros ->. unfold parse_drop_q. lgo. Qed.
Hint Resolve parse_drop_q_l : lspec.
Lemma parse_drop_i_l (drop_span drop_span' : span) (k : string) : drop_span' = respan lf drop_span -> pr rm (parse_drop_i drop_span k) (parse_drop_i drop_span' k).
Proof. intros ->. unfold parse_drop_i. lgo. Qed.
Hint Resolve parse_drop_i_l : lspec.
Lemma parse_drop_index_l n (drop_span drop_span' : span) : drop_span' = respan lf drop_span -> pr rm (parse_drop_index n drop_span) (parse_drop_index n drop_span').
Proof. intros ->. unfold parse_drop_index. lgo. Qed.
Hint Resolve parse_drop_index_l : lspec.
Lemma parse_drop_l n : pr rm (parse_drop n) (parse_drop n).
Proof. unfold parse_drop. lgo. Qed.
Hint Resolve parse_drop_l : lspec.
Lemma parse_truncate_table_l n : pr rm (parse_truncate_table n) (parse_truncate_table n).
Proof. unfold parse_truncate_table. lgo. Qed.
Hint Resolve parse_truncate_table_l : lspec.
Lemma parse_rename_table_l n : pr rm (parse_rename_table n) (parse_rename_table n).
Proof. unfold parse_rename_table. lgo. Qed.
Hint Resolve parse_rename_table_l : lspec.
End R.
#[export] Hint Resolve parse_drop_q_l parse_drop_i_l parse_drop_index_l parse_drop_l parse_truncate_table_l parse_rename_table_l : lspec.
