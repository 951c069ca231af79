(** C51: DELETE, UPDATE, INSERT, DROP, TRUNCATE and RENAME follow the grammar. *)
From Verif Require Export AcceptExpr.
Local Open Scope string_scope.
Local Open Scope list_scope.

Section Grammar.
Variable o : options.
Notation reads_at := (reads_at o). Notation reads := (reads o). Notation follow := (follow o). Notation calls := (calls o).
Lemma c_if_exists : calls parse_if_exists if_exists.
Proof. unfold if_exists, words. cbn [map]. rule_of. unfold parse_if_exists. walk. Qed.
Hint Resolve c_if_exists : reads.
Lemma c_drop_q n s k : calls (parse_drop_q n s k) (Seq [W k; if_exists; qualified]).
Proof. rule_of. unfold parse_drop_q. walk. Qed.
Lemma c_drop_i s k : calls (parse_drop_i s k) (Seq [W k; if_exists; name]).
Proof. rule_of. unfold parse_drop_i. walk. Qed.
Definition drop_on := maria o (Seq [W "ON"; qualified]) (pg o (Seq []) (Opt (Seq [W "ON"; qualified]))).
Lemma c_drop_index n s : calls (parse_drop_index n s) (Seq [W "INDEX"; if_exists; name; drop_on]).
Proof.
  rule_of. unfold parse_drop_index. unfold drop_on, maria, pg. walk. apply ra_skip_kw; [intros E s1 t3; doom|intros E; walk].
Qed.
Hint Resolve c_drop_q c_drop_i c_drop_index : reads.
Lemma c_drop n : calls (parse_drop n) (N_ NDrop).
Proof. rule_of. unfold parse_drop. walk. Qed.
Lemma c_truncate n : calls (parse_truncate_table n) (N_ NTruncate).
Proof. rule_of. unfold parse_truncate_table. walk. Qed.
Lemma c_rename n : calls (parse_rename_table n) (N_ NRename).
Proof. rule_of. unfold parse_rename_table. walk. Qed.

Section Rec.
Variable r : recs.
Hypothesis HE : forall b, calls (r_expr r b) (N_ (NExpr b)).
Hypothesis HC : reads (r_compound r) (fun s ts => derives o (N_ (match s with SSelect _ => NSingle | _ => NQuery end)) ts).
Hint Resolve HE HC : reads.
Lemma m_returning : reads (parse_returning r) (maybe o (N_ NReturning)).
Proof.
  intros t. unfold parse_returning. apply ra_skip_kw; [|intros _; apply m_end]. intros E s t1.
  apply (ra_conseq o _ _ _ (follow [commas (N_ NSelectExpr)] (given))); [walk|]. intros [x|] ts (a1 & a2 & -> & X & -> & Y); [|contradiction]. cbn [maybe].
  rewrite app_nil_r. apply d_rule. cbn [rule]. change (t :: a1) with ([t] ++ a1). constructor; [now constructor|exact X].
Qed.
Lemma c_returning : calls (parse_returning r) (Opt (N_ NReturning)).
Proof. apply m_calls, m_returning. Qed.
Hint Resolve c_returning : reads.
Lemma ne_sep_list A n (p : prog A) a : calls p a -> reads (sep_list n p) (fun l ts => derives o (commas a) ts /\ l <> []).
Proof.
  intros H t. unfold sep_list. apply (ra_loop o _ _ _ (fun _ => opened o a)); [now left|].
  intros l ts1 O t1. eapply ra_bind; [apply H|]. intros x ts2 H2 t2. apply ra_skip_tok.
  - intros -> s t3. apply ra_ret. right. exists (ts1 ++ ts2). split; [now rewrite <- app_assoc|]. now apply opened_close.
  - intros _. apply ra_ret. rewrite app_nil_r. split; [now apply opened_close|]. now destruct l.
Qed.
Lemma c_delete : calls (parse_delete r) (N_ NDelete).
Proof.
  rule_of. unfold parse_delete. apply f_seq. cbn [app]. walk1. walk1. apply ra_skip_kw.
  - intros E s t2. cbv beta iota. apply (ra_conseq o _ _ _ (follow [commas qualified; Opt (Seq [W "USING"; commas (N_ NTableRef)]); where_; Opt (N_ NReturning)] any)); [walk|].
    intros y ts (a1 & a2 & -> & X & ->). exists (t1 :: a1), []. split; [reflexivity|split; [|reflexivity]].
    apply (d_app o [commas qualified; Opt (Seq [W "USING"; commas (N_ NTableRef)])]) in X as (b1 & b2 & -> & X & Y).
    change (t1 :: b1 ++ b2) with ((t1 :: b1) ++ b2). constructor; [|exact Y]. eapply d_alt; [left; reflexivity|]. change (t1 :: b1) with ([t1] ++ b1). constructor; [now constructor|exact X].
  - intros _. cbv beta iota. alt 1. apply f_seq. cbn [app]. walk1. walk1. walk1. walk1. apply ra_assoc. eapply ra_bind; [apply ne_sep_list; apply c_table_ref; assumption|]. intros us ts [D N] t4. walk1.
    apply (ra_conseq o _ _ _ (follow [where_; Opt (N_ NReturning)] any)).
    + apply ra_skip_kw; [intros E s t5; doom; congruence|intros _]. walk.
    + intros y ts2 (a1 & a2 & -> & X & ->). exists (ts ++ a1), []. split; [now rewrite !app_nil_r|split; [|reflexivity]]. now constructor.
Qed.
Lemma c_column_path n : calls (parse_column_path n) (Seq [name; Star (Seq [T TPeriod; name])]).
Proof. rule_of. unfold parse_column_path. walk. Qed.
Lemma c_update : calls (parse_update r) (N_ NUpdate).
Proof.
  rule_of. unfold parse_update. unfold parse_column_path. walk.
  eapply ra_bind; [apply m_returning|]. intros [y|] ts H t6; cbn [maybe] in H; [doom|subst ts; walk].
Qed.
(** INSERT *)
Lemma kw_assoc_in' A (tbl : list (string * A)) t k c : kw_assoc tbl t = Some (k, c) -> In (k, c) tbl /\ is_kw t k = true.
Proof. induction tbl as [|[k' v] tbl IH]; cbn; [discriminate|]. destruct (is_kw t k') eqn:E; [injection 1 as -> ->; auto|]. intros H. destruct (IH H). auto. Qed.
Lemma flags_of n tbl : reads (parse_flags n tbl) (fun l ts => Forall2 (fun f t => exists k, In (k, tag f) tbl /\ is_kw t k = true) l ts).
Proof.
  intros t. unfold parse_flags. apply (ra_loop o _ _ _ (fun l ts => Forall2 (fun f t => exists k, In (k, tag f) tbl /\ is_kw t k = true) l ts)); [constructor|].
  intros l ts1 F t1. apply ra_token. destruct (kw_assoc tbl t1) as [[k c]|] eqn:E; [|apply ra_ret; now rewrite app_nil_r].
  apply kw_assoc_in' in E. eapply ra_bind; [apply ra_keyword'|]. intros s ts2 [-> _] t2. apply ra_ret. rewrite app_nil_r. apply Forall2_app; [exact F|]. constructor; [|constructor]. exists k. exact E.
Qed.
Definition no_flag (f : tagged) : Prop := tag f <> "HighPriority" /\ tag f <> "Ignore".
Lemma check_of b l : reads (check_insert_flags b l) (fun _ ts => ts = [] /\ (b = false -> Forall no_flag l)).
Proof.
  induction l as [|f l IH]; intros t; cbn [check_insert_flags]; [apply ra_ret; split; [reflexivity|constructor]|].
  destruct ((String.eqb (tag f) "HighPriority" || String.eqb (tag f) "Ignore") && negb b) eqn:E; [apply ra_err|].
  eapply ra_conseq; [apply IH|]. intros x ts [-> F]. split; [reflexivity|]. intros ->. constructor; [|auto]. rewrite andb_true_r in E. apply orb_false_iff in E as [E1 E2].
  apply String.eqb_neq in E1, E2. now split.
Qed.
Lemma flags_derive ks l ts : Forall2 (fun f t => exists k, In (k, tag f) insert_flags /\ is_kw t k = true) l ts ->
  (forall f k, In f l -> In (k, tag f) insert_flags -> In k ks) -> derives o (Star (one_of ks)) ts.
Proof.
  intros F. induction F as [|f t l ts (k & I & K) F IH]; intros H; [constructor|]. change (t :: ts) with ([t] ++ ts). constructor; [|apply IH; intros; eapply H; eauto; now right].
  eapply d_alt; [apply (in_map W); eapply H; [now left|exact I]|now constructor].
Qed.
Lemma c_set_pair : calls (parse_set_pair r) (Seq [name; T TEq; expr_]).
Proof. rule_of. unfold parse_set_pair. walk. Qed.
Hint Resolve c_set_pair : reads.
Lemma c_conflict_target n : calls (parse_conflict_target n) (Alt [paren [names]; Seq [W "ON"; W "CONSTRAINT"; name]; Seq []]).
Proof. rule_of. unfold parse_conflict_target. walk. alt 2. walk. Qed.
Lemma c_conflict_action : calls (parse_conflict_action r) (Seq [W "DO"; Alt [W "NOTHING"; Seq [W "UPDATE"; W "SET"; commas (Seq [name; T TEq; expr_]); where_]]]).
Proof. rule_of. unfold parse_conflict_action. walk. Qed.
Hint Resolve c_conflict_target c_conflict_action : reads.
Lemma c_insert_on : calls (parse_insert_on r) (Opt (N_ NConflict)).
Proof.
  apply f_calls. intros t. unfold parse_insert_on. apply ra_token. split_on (is_kw t "ON"); [|walk].
  apply f_opt_yes, f_rule. cbn [rule]. unfold maria, pg.
  assert (D : (is_maria (o_dialect o) = true /\ is_postgresql (o_dialect o) = false) \/ (is_maria (o_dialect o) = false /\ is_postgresql (o_dialect o) = true)
    \/ (is_maria (o_dialect o) = false /\ is_postgresql (o_dialect o) = false)) by (destruct (o_dialect o); auto).
  destruct D as [[D1 D2]|[[D1 D2]|[D1 D2]]]; rewrite D1, ?D2.
  - walk. doom.
  - unfold parse_conflict_action. walk. doom.
  - doom.
Qed.
Hint Resolve c_insert_on : reads.
Lemma ne_sep_list_recovered A n x (p : prog A) a : calls p a -> reads (sep_list_recovered n x p) (fun l ts => derives o (commas a) ts /\ l <> []).
Proof.
  intros H t. unfold sep_list_recovered. apply ra_recovered_acc. apply (ra_loop_acc o _ _ (fun _ => opened o a)); [now left|].
  intros l ts1 O t1. eapply ra_bind; [apply H|]. intros y ts2 H2 t2. apply ra_skip_tok.
  - intros -> s t3. apply ra_ret. cbn [fst snd]. right. exists (ts1 ++ ts2). split; [now rewrite <- app_assoc|]. now apply opened_close.
  - intros _. apply ra_ret. cbn [fst snd]. rewrite app_nil_r. split; [now apply opened_close|]. now destruct l.
Qed.
Definition rows := Alt [N_ NSelect; Seq [one_of ["VALUE"; "VALUES"]; commas (paren [commas expr_])]].
Lemma span_columns c rest : exists s, spn (c :: rest : list ident) = SSome s.
Proof.
  assert (X : forall l s, exists s', fold_left (fun a (b : ident) => jn a (spn b)) l (SSome s) = SSome s').
  { induction l as [|d l IH]; intros s; [eexists; reflexivity|]. cbn [fold_left]. apply IH. }
  exact (X rest (id_span c)).
Qed.
Lemma err_columns B t c rest m fm fs (k : unit -> prog B) R : reads_at t (bind (err_at_frag m (spn (c :: rest : list ident)) fm fs) k) R.
Proof. destruct (span_columns c rest) as [s ->]. apply ra_error. Qed.
Lemma c_source_columns c rest : calls (parse_insert_source r (c :: rest)) rows.
Proof.
  rule_of. unfold rows, parse_insert_source. walk. apply ra_doomed. eapply doom_bind; [solve [eauto 5 with reads nocore]|intros ?; intro].
  eapply doom_bind; [solve [eauto 5 with reads nocore]|intros ?; intro]. apply err_columns.
Qed.
Definition source := Alt [Seq [Opt (paren [names]); rows]; Seq [W "SET"; commas (Seq [name; T TEq; expr_])]].
Lemma c_source_none : calls (parse_insert_source r []) source.
Proof.
  apply f_calls. intros t. unfold source, rows, parse_insert_source. change (spn []) with SNone. cbn [err_at_frag]. walk.
Qed.
Definition insert_rest (ty : tagged) (flags : list tagged) : prog (insert_replace expr stmt) :=
  into_span <- skip_keyword "INTO" ;;
  table <- parse_qualified_name (r_n r) ;;
  p <- skip_token TLParen ;;
  columns <- match p with
             | Some _ =>
                 l <- sep_list_recovered (r_n r) ")" consume_plain_identifier ;;
                 consume_token TRParen ;;;
                 Ret l
             | None => Ret []
             end ;;
  '(select, values, set) <- parse_insert_source r columns ;;
  '(dup, conflict) <- parse_insert_on r ;;
  returning <- parse_returning r ;;
  Ret (mkInsertReplace ty flags into_span table columns values select set dup conflict returning).
Lemma c_insert_rest ty flags : reads (insert_rest ty flags) (follow [Opt (W "INTO"); qualified; source; Opt (N_ NConflict); Opt (N_ NReturning)] any).
Proof.
  intros t. unfold insert_rest.
  assert (K : forall into table (p : option span), reads (columns <- match p with
             | Some _ => l <- sep_list_recovered (r_n r) ")" consume_plain_identifier ;; consume_token TRParen ;;; Ret l
             | None => Ret [] end ;;
    '(select, values, set) <- parse_insert_source r columns ;;
    '(dup, conflict) <- parse_insert_on r ;;
    returning <- parse_returning r ;;
    Ret (mkInsertReplace ty flags into table columns values select set dup conflict returning))
    (follow (match p with Some _ => [names; T TRParen; rows] | None => [source] end ++ [Opt (N_ NConflict); Opt (N_ NReturning)]) any)).
  { intros into table [p|] t1; cbn [app].
    - apply ra_assoc. eapply ra_bind; [apply ne_sep_list_recovered, c_name|]. intros l ts [D N] t2. destruct l as [|c rest]; [congruence|].
      apply (ra_conseq o _ _ _ (follow [T TRParen; rows; Opt (N_ NConflict); Opt (N_ NReturning)] any)).
      + walk1. walk1. walk1. eapply f_cons; [apply c_source_columns|]. intros [[? ?] ?] t4. walk.
      + intros y ts2 (a1 & a2 & -> & X & ->). exists (ts ++ a1), []. rewrite !app_nil_r. repeat split. now constructor.
    - walk1. eapply f_cons; [apply c_source_none|]. intros [[? ?] ?] t4. walk. }
  unfold source at 1. walk1. walk1. apply ra_skip_tok; [intros -> s1 t9|intros _; apply (K _ _ None)].
  all: eapply ra_conseq; [apply (K _ _ (Some s1))|]; intros y ts (a1 & a2 & -> & X & ->); exists (TLParen :: a1), []; split; [reflexivity|split; [|reflexivity]].
  all: apply (d_app o [names; T TRParen; rows]) in X as (b1 & b2 & -> & X & Y); change (TLParen :: b1 ++ b2) with ((TLParen :: b1) ++ b2); constructor; [|exact Y].
  all: eapply d_alt; [left; reflexivity|]; apply (d_app o [names; T TRParen]) in X as (c1 & c2 & -> & X & Z).
  all: change (TLParen :: c1 ++ c2) with ((TLParen :: c1) ++ c2); constructor; [|exact Z]; constructor; change (TLParen :: c1) with ([TLParen] ++ c1); constructor; [constructor|exact X].
Qed.
Lemma c_insert : calls (parse_insert_replace r) (N_ NInsert).
Proof.
  rule_of. unfold parse_insert_replace. apply ra_token. apply f_seq. cbn [app]. split_on (is_kw t "INSERT"); [|split_on (is_kw t "REPLACE")]; [alt 0|alt 1|walk].
  - walk1. walk1. walk1. walk1. cbv beta iota zeta. walk1. eapply ra_bind; [apply check_of|]. intros y ts [-> _] t3. eapply ra_conseq; [apply (c_insert_rest (mkTag "Insert" s) x)|]. intros y2 ts2 H. exact H.
  - walk1. walk1. walk1. walk1. cbv beta iota zeta. eapply ra_bind; [apply flags_of|]. intros flags ts1 F t3. eapply ra_bind; [apply check_of|]. intros y ts [-> N] t4. specialize (N eq_refl).
    cbn [app]. eapply ra_conseq; [apply (c_insert_rest (mkTag "Replace" s) flags)|]. intros y2 ts2 (a1 & a2 & -> & X & ->). exists (ts1 ++ a1), []. rewrite !app_nil_r. repeat split.
    constructor; [|exact X]. eapply flags_derive; [exact F|]. rewrite Forall_forall in N. intros f k I K. destruct (N f I) as [N1 N2].
    destruct K as [K|[K|[K|[K|[]]]]]; injection K as <- K; cbn; auto; exfalso; congruence.
Qed.
End Rec.
End Grammar.
#[export] Hint Resolve c_if_exists c_drop c_truncate c_rename c_returning c_delete c_update c_set_pair c_insert : reads.
