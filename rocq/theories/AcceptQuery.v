(** C51: data types, queries and expressions follow the grammar. *)
From Verif Require Export AcceptTac.
Local Open Scope string_scope.
Local Open Scope list_scope.

Section Grammar.
Variable o : options.
Notation reads_at := (reads_at o). Notation reads := (reads o). Notation follow := (follow o). Notation calls := (calls o).
Lemma c_width : calls parse_width (Opt (N_ NWidth)).
Proof. rule_of. unfold parse_width. walk. Qed.
Lemma c_width_req : calls parse_width_req (N_ NWidth).
Proof. rule_of. unfold parse_width_req. apply ra_token. split_on (negb (tok_eqb t TLParen)); cbv iota zeta beta; [apply ra_expected_failure'|]. unfold parse_width. walk. Qed.
Hint Resolve c_width c_width_req : reads.
Lemma c_enum n : calls (parse_enum_set_values n) (paren [commas strings]).
Proof. rule_of. unfold parse_enum_set_values. walk. Qed.
Hint Resolve c_enum : reads.
Lemma c_type n : calls (parse_type n) (N_ NType).
Proof. rule_of. unfold parse_type. walk. Qed.

Hint Resolve c_type : reads.
Section Rec.
Variable r : recs.
Hypothesis HE : forall b, calls (r_expr r b) (N_ (NExpr b)).
Hint Resolve HE : reads.
Lemma c_paren_expr : calls (paren_expr r) (paren [expr_]).
Proof. rule_of. unfold paren_expr. walk. Qed.
Hint Resolve c_paren_expr : reads.
Lemma c_property b : reads (parse_property r b) (maybe o (N_ (NProperty b))).
Proof. intros t. unfold parse_property. destruct b; walk. Qed.
Hint Resolve c_property : reads.
Lemma c_data_type b : calls (parse_data_type r b) (N_ (NDataType b)).
Proof. rule_of. unfold parse_data_type. walk. Qed.
Hint Resolve c_data_type : reads.

(** Queries *)
Hypothesis HC : reads (r_compound r) (fun s ts => derives o (N_ (match s with SSelect _ => NSingle | _ => NQuery end)) ts).
Lemma single_query ts : derives o (N_ NSingle) ts -> derives o (N_ NQuery) ts.
Proof.
  revert ts. enough (H : forall n ts, length ts <= n -> derives o (N_ NSingle) ts -> derives o (N_ NQueryBottom) ts).
  { intros ts D. apply d_rule. cbn [rule]. rewrite <- (app_nil_r ts). constructor; [now apply (H (length ts))|]. change (@nil tok) with (@nil tok ++ []). repeat constructor. }
  induction n as [|n IH]; intros ts L D; inversion D as [| | |n0 ts0 D1| | | | | | |]; subst; cbn [rule] in D1; inversion D1; subst.
  all: match goal with H : In _ _ |- _ => destruct H as [<-|[<-|[]]] end.
  all: match goal with
       | H : derives o (paren _) _ |- _ => apply d_cons_inv in H as (t1 & t2 & -> & X1 & X2); cbn [app] in X2; apply d_cons_inv in X2 as (t3 & t4 & -> & X2 & X3); inversion X1; subst
       | H : derives o (N_ NSelect) _ |- _ => apply d_rule; cbn [rule]; eapply d_alt; [right; left; reflexivity|exact H]
       end.
  - rewrite !app_length in L. cbn [length] in L. lia.
  - apply d_rule. cbn [rule]. eapply d_alt; [left; reflexivity|]. constructor; [constructor|]. cbn [app]. constructor; [|exact X3].
    apply d_rule. cbn [rule]. rewrite <- (app_nil_r t3). constructor; [apply IH; [rewrite !app_length in L; cbn [length] in L; lia|exact X2]|].
    change (@nil tok) with (@nil tok ++ []). repeat constructor.
Qed.
Lemma c_compound : calls (r_compound r) (N_ NQuery).
Proof. intros t. eapply ra_conseq; [apply HC|]. intros s ts. destruct s; auto using single_query. Qed.
Hint Resolve c_compound : reads.
Lemma c_select_expr : calls (parse_select_expr r) (N_ NSelectExpr).
Proof. rule_of. unfold parse_select_expr. walk. Qed.
Hint Resolve c_select_expr : reads.
Lemma c_alias : calls parse_alias (Opt (Seq [Opt (W "AS"); name])).
Proof.
  apply f_calls. intros t. unfold parse_alias. apply ra_skip_kw.
  - intros E s t1. apply ra_token. cbn [is_some orb]. eapply ra_bind; [apply c_name|]. intros i ts1 H t2. apply ra_ret. rewrite app_nil_r.
    exists (t :: ts1), []. rewrite app_nil_r. repeat split. apply (proj1 (d_one _ _ _)). constructor. change (t :: ts1) with ([t] ++ ts1). constructor; [constructor; now constructor|].
    now apply (proj1 (d_one _ _ _)).
  - intros E. apply ra_token. cbn [is_some orb]. destruct (is_unreserved t); [apply f_opt_yes|apply f_opt_no; now apply f_ret].
    apply f_seq. cbn [app]. apply f_opt_no. walk.
Qed.
Hint Resolve c_alias : reads.
Lemma c_hint n : reads (parse_index_hint n) (maybe o (N_ NHint)).
Proof. intros t. unfold parse_index_hint. walk. Qed.
Lemma c_hints n : reads (loop n (fun l : list index_hint => h <- parse_index_hint n ;; match h with Some h => Ret (inl (l ++ [h])) | None => Ret (inr l) end) [])
  (fun l ts => derives o (Star (N_ NHint)) ts /\ (l = [] -> ts = [])).
Proof.
  intros t. apply (ra_loop o _ _ _ (fun l ts => derives o (Star (N_ NHint)) ts /\ (l = [] -> ts = []))); [split; [constructor|reflexivity]|].
  intros l ts1 [D E] t1. eapply ra_bind; [apply c_hint|]. intros [h|] ts2 H t2; cbn [maybe] in H; apply ra_ret; rewrite app_nil_r.
  - split; [now apply d_snoc|]. intros X. apply app_eq_nil in X as [_ X]. discriminate.
  - subst ts2. now rewrite app_nil_r.
Qed.
Lemma c_table_inner : calls (parse_table_reference_inner r) (N_ NTable).
Proof.
  rule_of. unfold parse_table_reference_inner. apply ra_token. split_on (is_kw t "SELECT" || tok_eqb t TLParen).
  1, 2: alt 0; walk.
  destruct t; walk1. apply f_seq. cbn [app]. walk1. walk1. destruct x0 as [u v]. cbv beta iota zeta. eapply ra_bind; [apply c_hints|]. intros hints ts [D E] t3.
  apply ra_dialect. unfold maria. destruct (is_maria (o_dialect o)).
  - apply (ra_conseq o _ _ _ (fun x ts2 => ts2 = [])); [destruct hints; walk; apply ra_ret; reflexivity|]. intros x9 ts2 ->. exists ts, []. split; [reflexivity|]. split; [now apply (proj1 (d_one _ _ _))|reflexivity].
  - destruct hints as [|h hs]; [|walk]. rewrite (E eq_refl). cbn [app]. apply (ra_conseq o _ _ _ (fun x ts2 => ts2 = [])); [walk; apply ra_ret; reflexivity|]. intros x9 ts2 ->. exists [], []. repeat split.
    change (@nil tok) with (@nil tok ++ []). repeat constructor.
Qed.
Hint Resolve c_table_inner : reads.
Lemma c_outer_join k : calls (parse_outer_join k) (Seq [W k; Opt (W "OUTER"); W "JOIN"]).
Proof. rule_of. unfold parse_outer_join. walk. Qed.
Hint Resolve c_outer_join : reads.
Lemma c_join : reads parse_join_type (maybe o (N_ NJoin)).
Proof. intros t. unfold parse_join_type. walk. Qed.
Lemma c_join_spec : calls (parse_join_spec r) (Opt (N_ NJoinSpec)).
Proof. apply m_calls. intros t. unfold parse_join_spec. walk. Qed.
Hint Resolve c_join c_join_spec : reads.
Lemma c_table_ref : calls (parse_table_reference r) (N_ NTableRef).
Proof. rule_of. unfold parse_table_reference. walk. Qed.
Hint Resolve c_table_ref : reads.

Lemma c_flags n tbl ks : forallb (fun x => existsb (String.eqb x) ks) (map fst tbl) = true -> calls (parse_flags n tbl) (Star (one_of ks)).
Proof.
  intros F. apply f_calls. intros t. unfold parse_flags. apply f_last, c_loop. intros s t1. apply ra_token. destruct (kw_assoc tbl t1) as [[k c]|] eqn:E; [|apply t_end].
  apply t_more. eapply f_table; [exact E|exact F|]. intros s2 t2. now apply f_ret.
Qed.
Hint Extern 1 (calls (parse_flags _ _) (Star (one_of _))) => apply c_flags; reflexivity : reads.
Lemma c_order_elements : calls (parse_order_elements r) (commas (N_ NOrdered)).
Proof. unfold parse_order_elements. apply c_sep_list. rule_of. walk. Qed.
Hint Resolve c_order_elements : reads.
Lemma c_order_by : calls (parse_order_by r) (Opt (N_ NOrderBy)).
Proof. rule_of. unfold parse_order_by. walk. Qed.
Lemma c_limit : calls (parse_limit r) (Opt (N_ NLimit)).
Proof. rule_of. unfold parse_limit. walk. Qed.
Hint Resolve c_order_by c_limit : reads.
Lemma c_where k : calls (opt_where r k) (Opt (Seq [W k; expr_])).
Proof. apply c_opt_where, HE. Qed.
Lemma c_where' : calls (opt_where r "WHERE") where_.
Proof. apply c_where. Qed.
Lemma c_expr : calls (r_expr r false) expr_.
Proof. apply HE. Qed.
Hint Resolve c_where c_where' c_expr : reads.
Lemma c_locking : calls (parse_locking r) (Opt (N_ NLocking)).
Proof.
  rule_of. unfold parse_locking. walk; (eapply ra_bind; [apply c_keywords|]; intros x ts _ t1; cbv beta iota zeta; apply (ra_dialect o); rewrite D; cbn [tag tag_span String.eqb Ascii.eqb Bool.eqb orb andb negb]; walk).
Qed.
Hint Resolve c_locking : reads.
Lemma c_select : calls (parse_select r) (N_ NSelect).
Proof. rule_of. unfold parse_select. walk. Qed.
Hint Resolve c_select : reads.

Definition query_kind (b : bool) (s : stmt) : nt := match s with SSelect _ => NSingle | _ => if b then NQuery else NQueryBottom end.
Lemma c_bottom : reads (parse_compound_query_bottom r) (fun s ts => derives o (N_ (query_kind false s)) ts).
Proof.
  intros t. unfold parse_compound_query_bottom. apply ra_token. split_on (tok_eqb t TLParen).
  - eapply ra_bind; [apply ra_token'|]. intros lp ts1 [-> E] t1. subst t.
    apply (ra_bind o _ _ _ _ _ (fun x ts => exists s, x = Some s /\ derives o (N_ match s with SSelect _ => NSingle | _ => NQuery end) ts)).
    { apply ra_recovered. eapply ra_bind; [apply HC|]. intros s ts2 H t2. apply ra_ret. rewrite app_nil_r. eauto. }
    intros x ts2 (s & -> & D) t3. eapply ra_bind; [apply ra_token'|]. intros rp ts3 [-> ->] t4. apply ra_ret.
    assert (P : forall n, derives o (N_ n) ts2 -> derives o (paren [N_ n]) ([TLParen] ++ ts2 ++ [TRParen] ++ [])).
    { intros n X. constructor; [constructor|]. constructor; [exact X|]. constructor; constructor. }
    unfold query_kind. destruct s; apply d_rule; cbn [rule]; (eapply d_alt; [left; reflexivity|apply P; exact D]).
  - split_on (is_kw t "SELECT"); [|apply ra_expected_failure']. eapply ra_bind; [apply c_select|]. intros s ts1 D t1. apply ra_ret. rewrite app_nil_r.
    cbn [query_kind]. apply d_rule. cbn [rule]. eapply d_alt; [right; left; reflexivity|exact D].
Qed.
Lemma bottom_query ts : derives o (N_ NQueryBottom) ts -> derives o (N_ NQuery) ts.
Proof. intros D. apply d_rule. cbn [rule]. rewrite <- (app_nil_r ts). constructor; [exact D|]. change (@nil tok) with (@nil tok ++ []). repeat constructor. Qed.
Lemma single_bottom ts : derives o (N_ NSingle) ts -> derives o (N_ NQueryBottom) ts.
Proof.
  intros D. inversion D as [| | |n0 ts0 D1| | | | | | |]; subst; cbn [rule] in D1; inversion D1; subst.
  match goal with H : In _ _ |- _ => destruct H as [<-|[<-|[]]] end; apply d_rule; cbn [rule].
  - match goal with H : derives o (paren _) _ |- _ => apply d_cons_inv in H as (t1 & t2 & -> & X1 & X2); cbn [app] in X2; apply d_cons_inv in X2 as (t3 & t4 & -> & X2 & X3) end.
    eapply d_alt; [left; reflexivity|]. constructor; [exact X1|]. constructor; [now apply single_query|exact X3].
  - eapply d_alt; [right; left; reflexivity|assumption].
Qed.
Lemma c_bottom' : calls (parse_compound_query_bottom r) (N_ NQueryBottom).
Proof. intros t. eapply ra_conseq; [apply c_bottom|]. intros s ts. destruct s; cbn [query_kind]; auto using single_bottom. Qed.
Hint Resolve c_bottom' : reads.
Definition one_union := Seq [W "UNION"; Opt (one_of ["ALL"; "DISTINCT"]); N_ NQueryBottom].
Definition union_post {S A} : S + A -> list tok -> Prop := fun _ ts => derives o one_union ts.
Lemma c_unions : calls (parse_unions r) (Seq [one_union; Star one_union]).
Proof.
  intros t. unfold parse_unions.
  apply (ra_loop o _ _ _ (fun l ts => ts = [] \/ derives o (Seq [one_union; Star one_union]) ts)); [now left|].
  intros l ts1 I t1. apply (ra_conseq o _ _ _ (follow [one_union] any)); [unfold one_union; walk|].
  all: intros y ts2 (a1 & a2 & -> & X & ->); apply (proj2 (d_one _ _ _)) in X; rewrite app_nil_r.
  assert (D : derives o (Seq [one_union; Star one_union]) (ts1 ++ a1)).
  { destruct I as [->|D]; [cbn [app]; rewrite <- (app_nil_r a1); constructor; [exact X|change (@nil tok) with (@nil tok ++ []); repeat constructor]|].
    apply d_cons_inv in D as (b1 & b2 & -> & Y & Z). apply (proj2 (d_one _ _ _)) in Z. rewrite <- app_assoc. constructor; [exact Y|]. apply (proj1 (d_one _ _ _)). now apply d_snoc. }
  destruct y; [now right|exact D].
Qed.
Lemma c_compound_query : reads (parse_compound_query r) (fun s ts => derives o (N_ (query_kind true s)) ts).
Proof.
  intros t. unfold parse_compound_query. eapply ra_bind; [apply c_bottom|]. intros q ts1 D t1. apply ra_token. split_on (negb (is_kw t1 "UNION")).
  - apply ra_ret. rewrite app_nil_r. destruct q; cbn [query_kind] in *; auto using bottom_query.
  - apply (ra_conseq o _ _ _ (fun x ts => (exists u, x = SUnion u) /\ derives o (Seq [Seq [one_union; Star one_union]; Opt (N_ NOrderBy); Opt (N_ NLimit)]) ts)).
    { eapply ra_bind; [apply c_unions|]. intros x ts2 D2 t2. eapply ra_bind; [apply c_order_by|]. intros y ts3 D3 t3. eapply ra_bind; [apply c_limit|]. intros z ts4 D4 t4.
      apply ra_ret. split; [eauto|]. constructor; [exact D2|]. constructor; [exact D3|]. constructor; [exact D4|constructor]. }
    intros x ts ([u ->] & X). cbn [query_kind]. apply d_rule. cbn [rule]. constructor; [destruct q; cbn [query_kind] in *; auto using single_bottom|].
    apply (proj1 (d_one _ _ _)). constructor. apply d_cons_inv in X as (a & b & -> & X & Y). apply d_cons_inv in X as (c & d & -> & X & Z). apply (proj2 (d_one _ _ _)) in Z.
    change (W "UNION" :: ?l) with ([W "UNION"] ++ l). rewrite <- app_assoc. apply (d_app' o [W "UNION"; Opt (one_of ["ALL"; "DISTINCT"]); N_ NQueryBottom]); [exact X|]. now constructor.
Qed.
End Rec.
End Grammar.
Definition compound_kind (s : stmt) : nt := match s with SSelect _ => NSingle | _ => NQuery end.
#[export] Hint Resolve c_width c_width_req c_enum c_type c_paren_expr c_property c_data_type c_compound c_select_expr c_alias c_table_inner c_outer_join c_join c_join_spec
  c_table_ref c_order_elements c_order_by c_limit c_where c_where' c_expr c_locking c_select c_bottom' : reads.
#[export] Hint Extern 1 (calls _ (parse_flags _ _) (Star (one_of _))) => apply c_flags; reflexivity : reads.
