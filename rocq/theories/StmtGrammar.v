(** The parser reads what the grammar of [StmtSpec.v] generates. *)
From Verif Require Export StmtSpec GrammarTop.
Local Open Scope string_scope.
Local Open Scope list_scope.

Lemma heads_end y rest : from 11 y = true -> heads ends (y :: rest).
Proof.
  intros F. split; [discriminate|]. apply from_cases in F as [F|(v & k & E & I)]; [| |lia].
  - exists (fst y). cbn. destruct F as [-> |[-> |[-> | ->]]]; auto 7.
  - exists (W k). split; [cbn in *; intuition (subst; auto 10)|]. right. exists v, [], k. split; [reflexivity|exact E].
Qed.
Section Rules.
Variable o : reading.
Notation parses := (parses o). Notation kw_tok := (kw_tok o). Notation name_tok := (name_tok o).
(** ** Rules for phrases *)
Lemma pb_qname ts q us m : qname_is o ts q -> us <> [] -> tok_eqb (hd_tok us) TPeriod = false -> length ts <= m ->
  parses (parse_qualified_name m) (ts ++ us) q us.
Proof. intros Q N P L. destruct us; [congruence|]. now apply pa_qname. Qed.
Lemma pb_expr inner ts e us n : expr_is o inner ts e -> us <> [] -> stops (hd_tok us) = true -> length ts < n ->
  parses (r_expr (knot n) inner) (ts ++ us) e us.
Proof.
  intros E N S L. destruct us as [|y us]; [congruence|]. destruct n as [|n]; [lia|]. apply pa_r_expr; [now apply expr_parses|lia|].
  now apply stops_stops_at.
Qed.
Lemma cond_parses k ts c : cond_is o k ts c -> P_cond o k ts c.
Proof. apply grammar_parses. Qed.
Lemma pb_where ts c us n : cond_is o "WHERE" ts c -> us <> [] -> stops (hd_tok us) = true -> is_kw (hd_tok us) "WHERE" = false -> length ts < n ->
  parses (opt_where (knot n) "WHERE") (ts ++ us) c us.
Proof.
  intros C N S K L. apply cond_parses in C. destruct c as [[e s]|]; cbn [GrammarProof.P_cond] in C.
  - destruct C as (t & vs & -> & Kt & H). cbn [length app] in *. eapply pa_bind; [apply pb_skip; [exact Kt|now apply ne_app]|]. cbn iota.
    destruct us as [|y us]; [congruence|]. destruct n as [|n]; [lia|]. eapply pa_bind; [apply pa_r_expr; [exact H|lia|now apply stops_stops_at]|apply pa_ret].
  - subst ts. cbn [app]. eapply pa_bind; [now apply pb_skip_no|]. apply pa_ret.
Qed.
Lemma where_head ts c us ps : cond_is o "WHERE" ts c -> heads ps us -> In (W "WHERE") ps -> heads ps (ts ++ us).
Proof. intros C H I. apply heads_app; [exact H|]. inversion C; subst; [now left|]. right. eapply heads_kw; eauto. Qed.
Lemma pb_from ts l us n : from_is o ts l -> us <> [] -> from 2 (hd_tok us, (0, 0)) = true -> length ts < n ->
  parses (sep_list (r_n (knot (S n))) (parse_table_reference (knot (S n)))) (ts ++ us) l us.
Proof.
  intros F N R L. destruct us as [|y us]; [congruence|]. cbn [hd_tok] in R.
  assert (F2 : from 2 y = true) by exact R.
  apply (pa_sep o _ (fun n => parse_table_reference (knot (S n))) f_from); [now apply grammar_parses|exact L|rewrite r_n_knot; lia| |].
  - unfold f_from. now rewrite F2.
  - apply from_not_comma. apply (from_le 1 2); auto.
Qed.
Lemma pb_selection ts l us n : selection_is o ts l -> us <> [] -> stops (hd_tok us) = true -> is_kw (hd_tok us) "AS" = false -> tok_eqb (hd_tok us) TComma = false -> length ts < n ->
  parses (sep_list (r_n (knot n)) (parse_select_expr (knot n))) (ts ++ us) l us.
Proof.
  intros F N R A C L. destruct us as [|y us]; [congruence|]. cbn [hd_tok] in *.
  assert (S : P_selection o ts l) by now apply grammar_parses. destruct S as [_ S].
  apply (pa_sep o _ (fun n => parse_select_expr (knot n)) f_sel); [exact S|exact L|rewrite r_n_knot; lia| |exact C].
  unfold f_sel. rewrite A. unfold stops_at. now rewrite R.
Qed.
(** RETURNING. *)
Lemma pb_returning ts r us n : returning_is o ts r -> heads ends us -> length ts < n -> parses (parse_returning (knot n)) (ts ++ us) r us.
Proof.
  intros R H L. pose proof (heads_ne _ _ H) as N. destruct R as [|t s ts l K S]; cbn [app length] in *.
  - eapply pa_bind; [apply pb_skip_no; [exact N|hd_tac H]|]. apply pa_ret.
  - eapply pa_bind; [apply pb_skip; [exact K|now apply ne_app]|]. cbn iota. eapply pa_bind; [|apply pa_ret].
    apply pb_selection; auto; try (hd_tac H); lia.
Qed.
Lemma returning_head ts r us ps : returning_is o ts r -> heads ps us -> In (W "RETURNING") ps -> heads ps (ts ++ us).
Proof. intros R H I. apply heads_app; [exact H|]. destruct R as [|t s ts l K S]; [now left|right; eapply heads_kw; eauto]. Qed.
(** Flags. *)
Lemma pb_flags tbl tbl' ts l us n : flags_of o tbl ts l -> us <> [] -> kw_assoc tbl' (hd_tok us) = None -> nodup_keys tbl' = true -> incl tbl tbl' -> length ts < n ->
  parses (parse_flags n tbl') (ts ++ us) l us.
Proof.
  intros F N A D S L. unfold parse_flags. set (body := fun l : list tagged => _).
  assert (G : forall acc, parses (loop n body acc) (ts ++ us) (acc ++ l) us); [|apply (G [])]. revert n L.
  induction F as [|k c t s ts l I K F IH]; intros n L acc; (destruct n as [|n]; [cbn in L; lia|]); cbn [loop app length] in *.
  - rewrite app_nil_r. eapply (pa_bind o _ _ _ _ _ (inr acc)); [|apply pa_ret]. eapply pa_bind; [now apply pb_token|]. rewrite A. apply pa_ret.
  - eapply (pa_bind o _ _ _ _ _ (inl (acc ++ [mkTag c s]))).
    + eapply pa_bind; [apply pb_token; discriminate|]. cbn [hd_tok fst]. pose proof K as (v & E & _). rewrite E, (kw_assoc_in tbl' v k c D (S _ I)), <- E.
      eapply pa_bind; [apply pb_kw; [exact K|now apply ne_app]|apply pa_ret].
    + cbn iota. replace (acc ++ mkTag c s :: l) with ((acc ++ [mkTag c s]) ++ l) by now rewrite <- app_assoc. apply IH. lia.
Qed.
(** IF EXISTS. *)
Lemma pb_if_exists ts x us : if_exists_is o ts x -> us <> [] -> is_kw (hd_tok us) "IF" = false -> parses parse_if_exists (ts ++ us) x us.
Proof.
  intros [|t s t' s' K K'] N F; cbn [app].
  - eapply pa_bind; [now apply pb_skip_no|]. apply pa_ret.
  - eapply pa_bind; [apply pb_skip; [exact K|discriminate]|]. cbn iota. eapply pa_bind; [now apply pb_kw|]. apply pa_ret.
Qed.
Lemma pb_qnames ts l us m : commas (qname_is o) ts l -> us <> [] -> tok_eqb (hd_tok us) TPeriod = false -> tok_eqb (hd_tok us) TComma = false -> length ts < m ->
  parses (sep_list m (parse_qualified_name m)) (ts ++ us) l us.
Proof.
  intros C N P Cm L. apply (pb_sep o _ _ _ (fun t => negb (tok_eqb t TPeriod)) ts l m m us C); auto; [|now rewrite P].
  intros ts' a us' X U Q L'. apply negb_true_iff in Q. apply pb_qname; auto. lia.
Qed.
(** ** Heads of names *)
Lemma name_head t v k : name_tok t v -> kw_reserved (KW k) = true -> is_kw t k = false.
Proof.
  intros [(w & -> & R & _)|[[-> _]|[-> _]]] H; try reflexivity. destruct w as [| |w]; try reflexivity. cbn [is_kw kw_eqb].
  destruct (String.eqb_spec w k) as [->|]; [congruence|reflexivity].
Qed.
Lemma qname_head ts q : qname_is o ts q -> exists t v s us, ts = (t, s) :: us /\ name_tok t v.
Proof. destruct 1; eauto 8. Qed.
Lemma qname_not_kw ts q us k : qname_is o ts q -> kw_reserved (KW k) = true -> is_kw (hd_tok (ts ++ us)) k = false.
Proof. intros Q R. destruct (qname_head _ _ Q) as (t & v & s & us' & -> & N). cbn. now apply (name_head t v). Qed.
Lemma qnames_not_kw ts l us k : commas (qname_is o) ts l -> kw_reserved (KW k) = true -> is_kw (hd_tok (ts ++ us)) k = false.
Proof. intros [ts' q Q|ts' q s ts'' l' Q _] R; [|rewrite <- app_assoc]; now apply (qname_not_kw _ q). Qed.
Lemma qname_ne ts q us : qname_is o ts q -> ts ++ us <> [].
Proof. intros Q. destruct (qname_head _ _ Q) as (t & v & s & us' & -> & N). discriminate. Qed.
Lemma qnames_ne ts l us : commas (qname_is o) ts l -> ts ++ us <> [].
Proof. intros [ts' q Q|ts' q s ts'' l' Q _]; [|rewrite <- app_assoc]; now apply (qname_ne _ q). Qed.
Lemma table_head ts t : table_is o ts t -> exists x xs, ts = x :: xs /\ (fst x = TLParen \/ exists v, name_tok (fst x) v).
Proof.
  destruct 1 as [ts q us a b hs h Q Hd A Hh|ts q us a i B A].
  - destruct (qname_head _ _ Q) as (t & v & s & us' & -> & N). eexists _, _. split; [reflexivity|]. right. eauto.
  - inversion B; subst; cbn [app]; [|eexists _, _; split; [reflexivity|now left]]. exfalso. match goal with S : select_is o Closed _ _ |- _ => inversion S end.
Qed.
Lemma tables_head b ts t : tables_are o b ts t -> exists x xs, ts = x :: xs /\ (fst x = TLParen \/ exists v, name_tok (fst x) v).
Proof.
  assert (G : forall n b ts t, length ts <= n -> tables_are o b ts t -> exists x xs, ts = x :: xs /\ (fst x = TLParen \/ exists v, name_tok (fst x) v)).
  { induction n as [|n IH]; intros b' ts' t' L H; inversion H as [ts0 t0 T|b0 ts0 l r js j ts1 t1 b1 us c T J B T1 O]; subst.
    - now apply table_head in T.
    - apply table_head in T1 as (x & xs & -> & _). rewrite !app_length in L. cbn in L. lia.
    - now apply table_head in T.
    - pose proof (table_head _ _ T1) as (x1 & xs1 & E1 & _). rewrite !app_length in L. subst ts1. cbn [length] in L.
      destruct (IH b0 ts0 l ltac:(lia) T) as (x & xs & -> & X). eexists _, _. split; [reflexivity|exact X]. }
  apply (G (length ts)). lia.
Qed.
Lemma from_head ts l : from_is o ts l -> exists x xs, ts = x :: xs /\ (fst x = TLParen \/ exists v, name_tok (fst x) v).
Proof.
  destruct 1 as [b ts t T|b ts t s ts' l T _]; [now apply (tables_head b _ t)|]. destruct (tables_head b _ t T) as (x & xs & -> & X). eexists _, _. split; [reflexivity|exact X].
Qed.
Lemma from_not_kw_head ts l us k : from_is o ts l -> kw_reserved (KW k) = true -> is_kw (hd_tok (ts ++ us)) k = false.
Proof.
  intros F R. destruct (from_head _ _ F) as (x & xs & -> & [E|(v & N)]); cbn [app hd_tok]; [now rewrite E|now apply (name_head _ v)].
Qed.
Lemma kw_assoc_none {A} (tbl : list (string * A)) t : forallb (fun x => negb (is_kw t (fst x))) tbl = true -> kw_assoc tbl t = None.
Proof. induction tbl as [|[k c] tbl IH]; [reflexivity|]. cbn [forallb fst kw_assoc]. intros H. apply andb_prop in H as [H1 H2]. apply negb_true_iff in H1. rewrite H1. auto. Qed.
End Rules.

(** ** Statements *)
Section Statements.
Variable o : reading.
Notation parses := (parses o). Notation kw_tok := (kw_tok o). Notation name_tok := (name_tok o).
Ltac norm := repeat (rewrite <- ?app_assoc; cbn [app]).
Ltac ne := first [discriminate | apply ne_app; ne | eapply heads_ne; eassumption | assumption].
Ltac len := repeat (rewrite ?app_length in *; cbn [length] in *); lia.
(** Assignments. *)
Lemma pb_assign ts x us n : assign_is o ts x -> us <> [] -> stops (hd_tok us) = true -> length ts < n ->
  parses (i <- consume_plain_identifier ;; consume_token TEq ;;; e <- r_expr (knot n) false ;; Ret (i, e)) (ts ++ us) x us.
Proof.
  intros [t v s e ts' y N E] U S L. cbn [app length] in *. eapply pa_bind; [apply pb_name; [exact N|discriminate]|].
  eapply pa_bind; [apply pb_tok; [ne|reflexivity]|]. eapply pa_bind; [apply pb_expr; [exact E|exact U|exact S|lia]|]. apply pa_ret.
Qed.
Lemma pb_pair ts x us n : pair_is o ts x -> us <> [] -> stops (hd_tok us) = true -> length ts < n ->
  parses (parse_set_pair (knot n)) (ts ++ us) x us.
Proof.
  intros [t v s e ts' y N E] U S L. cbn [app length] in *. eapply pa_bind; [apply pb_name; [exact N|discriminate]|].
  eapply pa_bind; [apply pb_tok; [ne|reflexivity]|]. eapply pa_bind; [apply pb_expr; [exact E|exact U|exact S|lia]|]. apply pa_ret.
Qed.
Lemma path_len ts l : path_is o ts l -> length l <= length ts /\ 0 < length ts.
Proof. induction 1; cbn [length]; lia. Qed.
Lemma pb_path ts l us m : path_is o ts l -> us <> [] -> tok_eqb (hd_tok us) TPeriod = false -> length ts < m ->
  parses (parse_column_path m) (ts ++ us) l us.
Proof.
  intros P U D L. unfold parse_column_path. set (body := fun l : list ident => _).
  assert (X : exists t v s ts' l', ts = (t, s) :: ts' /\ l = mkIdent v s :: l' /\ name_tok t v) by (inversion P; subst; eexists _, _, _, _, _; eauto).
  destruct X as (t & v & s & ts' & l' & -> & -> & N). cbn [app]. eapply pa_bind; [apply pb_name; [exact N|ne]|]. cbn [length] in L.
  assert (G : forall acc, parses (loop m body (acc ++ [mkIdent v s])) (ts' ++ us) (acc ++ mkIdent v s :: l') us); [|apply (G [])].
  assert (Lm : length ts' < m) by lia. clear L N. remember ((t, s) :: ts') as ts eqn:E1. remember (mkIdent v s :: l') as l eqn:E2. revert t v s ts' l' E1 E2 m Lm.
  induction P as [t0 v0 s0 N0|t0 v0 s0 d ts l N0 P IH]; intros t v s ts' l' E1 E2 m Lm acc; injection E1 as <- <- <-; injection E2 as <- <-; (destruct m as [|m]; [lia|]); cbn [loop app].
  - eapply (pa_bind o _ _ _ _ _ (inr _)); [|apply pa_ret]. eapply pa_bind; [now apply pb_skip_tok_no|apply pa_ret].
  - assert (X : exists t v s ts' l', ts = (t, s) :: ts' /\ l = mkIdent v s :: l' /\ name_tok t v) by (inversion P; subst; eexists _, _, _, _, _; eauto).
    destruct X as (t1 & v1 & s1 & ts1 & l1 & -> & -> & N1). cbn [app length] in *.
    eapply (pa_bind o _ _ _ _ _ (inl _)); [eapply pa_bind; [apply pb_skip_tok; [discriminate|reflexivity]|]; eapply pa_bind; [apply pb_name; [exact N1|ne]|apply pa_ret]|].
    cbn iota. replace (acc ++ mkIdent v0 s0 :: mkIdent v1 s1 :: l1) with ((acc ++ [mkIdent v0 s0]) ++ mkIdent v1 s1 :: l1) by now rewrite <- app_assoc.
    eapply IH; try reflexivity. lia.
Qed.
Lemma pb_column ts x us n : column_is o ts x -> us <> [] -> stops (hd_tok us) = true -> length ts < n ->
  parses (col <- parse_column_path (r_n (knot n)) ;; consume_token TEq ;;; v <- r_expr (knot n) false ;; Ret (col, v)) (ts ++ us) x us.
Proof.
  intros [cs c e ts' y P E] U S L. norm. rewrite app_length in L. cbn [length] in L.
  eapply pa_bind; [apply pb_path; [exact P|discriminate|reflexivity|rewrite r_n_knot; lia]|].
  eapply pa_bind; [apply pb_tok; [ne|reflexivity]|]. eapply pa_bind; [apply pb_expr; [exact E|exact U|exact S|lia]|]. apply pa_ret.
Qed.
(** Lists that end at the end of an expression. *)
Lemma pb_list A (P : tks -> A -> Prop) (p : nat -> prog A) ts l us n : commas P ts l ->
  (forall ts a us, P ts a -> us <> [] -> stops (hd_tok us) = true -> length ts < n -> parses (p n) (ts ++ us) a us) ->
  us <> [] -> stops (hd_tok us) = true -> tok_eqb (hd_tok us) TComma = false -> length ts < n ->
  parses (sep_list (r_n (knot n)) (p n)) (ts ++ us) l us.
Proof. intros C H U S Cm L. apply (pb_sep o A P (p n) stops ts l n); auto. rewrite r_n_knot. lia. Qed.

(** *** DELETE *)
Notation tail_heads := (W "WHERE" :: W "RETURNING" :: ends).
Lemma pb_delete ts x us n : delete_is o ts x -> heads ends us -> length ts < n -> parses (parse_delete (knot n)) (ts ++ us) x us.
Proof.
  intros H Hu L. destruct H as [t s fs fl t' s' ts l vs u wh w rs r K F K' C U Wh R|t s fs fl t' s' ts l vs u wh w rs r K F C Qk K' U Wh R]; norm.
  - assert (H1 : heads (W "RETURNING" :: ends) (rs ++ us)) by (eapply returning_head; [exact R|eapply heads_sub; [exact Hu|apply incl_tl, incl_refl]|now left]).
    assert (H2 : heads tail_heads (wh ++ rs ++ us)) by (eapply where_head; [exact Wh|eapply heads_sub; [exact H1|apply incl_tl, incl_refl]|now left]).
    assert (H3 : heads (W "USING" :: tail_heads) (vs ++ wh ++ rs ++ us)).
    { apply heads_app; [eapply heads_sub; [exact H2|apply incl_tl, incl_refl]|]. destruct U as [|tu su ts' l' Ku Fu]; [now left|right; eapply heads_kw; [exact Ku|now left]]. }
    eapply pa_bind; [apply pb_kw; [exact K|ne]|].
    eapply pa_bind; [apply (pb_flags o delete_words); [exact F|discriminate|destruct K' as (v & -> & _); reflexivity|reflexivity|apply incl_refl|rewrite r_n_knot; len]|].
    eapply pa_bind; [apply pb_skip; [exact K'|ne]|]. cbn iota.
    eapply (pa_bind o _ _ _ _ _ (s', l, [])).
    { eapply pa_bind; [apply pb_qnames; [exact C|ne|hd_tac H3|hd_tac H3|rewrite r_n_knot; len]|apply pa_ret]. }
    cbn iota. destruct U as [|tu su ts' l' Ku Fu].
    + cbn [app] in *. eapply pa_bind; [apply pb_skip_no; [ne|hd_tac H2]|]. cbn iota. eapply pa_bind; [apply pa_ret|].
      eapply pa_bind; [apply pb_where; [exact Wh|ne|hd_tac H1|hd_tac H1|len]|]. eapply pa_bind; [apply pb_returning; [exact R|exact Hu|len]|]. apply pa_ret.
    + norm. eapply pa_bind; [apply pb_skip; [exact Ku|ne]|]. cbn iota. destruct n as [|n]; [lia|].
      eapply (pa_bind o _ _ _ _ _ l'). { eapply pa_bind; [apply pa_ret|]. eapply pa_bind; [apply pb_from; [exact Fu|ne|hd_tac H2|len]|apply pa_ret]. }
      eapply pa_bind; [apply pb_where; [exact Wh|ne|hd_tac H1|hd_tac H1|len]|]. eapply pa_bind; [apply pb_returning; [exact R|exact Hu|len]|]. apply pa_ret.
  - assert (H1 : heads (W "RETURNING" :: ends) (rs ++ us)) by (eapply returning_head; [exact R|eapply heads_sub; [exact Hu|apply incl_tl, incl_refl]|now left]).
    assert (H2 : heads tail_heads (wh ++ rs ++ us)) by (eapply where_head; [exact Wh|eapply heads_sub; [exact H1|apply incl_tl, incl_refl]|now left]).
    eapply pa_bind; [apply pb_kw; [exact K|ne]|].
    eapply pa_bind; [apply (pb_flags o delete_words); [exact F|ne| |reflexivity|apply incl_refl|rewrite r_n_knot; len]|].
    { apply kw_assoc_none. cbn [forallb delete_flags fst]. rewrite (qnames_not_kw o ts l _ "LOW_PRIORITY"), (qnames_not_kw o ts l _ "IGNORE") by (exact C || reflexivity).
      assert (Hq : forall zs, hd_tok (ts ++ zs) = hd_tok ts) by (intros zs; destruct ts; [now apply (qnames_ne o [] l []) in C|reflexivity]). rewrite Hq, Qk. reflexivity. }
    eapply pa_bind; [apply pb_skip_no; [ne|now apply (qnames_not_kw o ts l)]|]. cbn iota. destruct n as [|n]; [lia|].
    eapply (pa_bind o _ _ _ _ _ (s', l, u)).
    { eapply pa_bind; [apply pb_qnames; [exact C|ne|destruct K' as (v & -> & _); reflexivity|destruct K' as (v & -> & _); reflexivity|rewrite r_n_knot; len]|].
      eapply pa_bind; [apply pb_kw; [exact K'|ne]|]. eapply pa_bind; [apply pb_from; [exact U|ne|hd_tac H2|len]|apply pa_ret]. }
    cbn iota. eapply pa_bind; [apply pb_skip_no; [ne|hd_tac H2]|]. cbn iota. eapply pa_bind; [apply pa_ret|].
    eapply pa_bind; [apply pb_where; [exact Wh|ne|hd_tac H1|hd_tac H1|len]|]. eapply pa_bind; [apply pb_returning; [exact R|exact Hu|len]|]. apply pa_ret.
Qed.
(** *** UPDATE *)
Lemma commas_head A (P : tks -> A -> Prop) ts l us : commas P ts l -> (forall ts a, P ts a -> ts <> []) -> ts ++ us <> [] .
Proof. intros [ts' a X|ts' a s ts'' l' X _] H; apply H in X; destruct ts'; try congruence; discriminate. Qed.
Lemma from_ne ts l us : from_is o ts l -> ts ++ us <> [].
Proof. intros F. destruct (from_head o ts l F) as (x & xs & -> & _). discriminate. Qed.
Lemma column_ne ts a : column_is o ts a -> ts <> [].
Proof. destruct 1. now destruct cs. Qed.
Lemma pb_update ts x us n : update_is o ts x -> heads ends us -> length ts < n -> parses (parse_update (knot n)) (ts ++ us) x us.
Proof.
  intros H Hu L. destruct H as [t s fs fl ts l t' s' cs c wh w rs r K F Fr K' C Wh R D]; norm.
  assert (H1 : heads (W "RETURNING" :: ends) (rs ++ us)) by (eapply returning_head; [exact R|eapply heads_sub; [exact Hu|apply incl_tl, incl_refl]|now left]).
  assert (H2 : heads tail_heads (wh ++ rs ++ us)) by (eapply where_head; [exact Wh|eapply heads_sub; [exact H1|apply incl_tl, incl_refl]|now left]).
  eapply pa_bind; [apply pb_kw; [exact K|ne]|].
  eapply pa_bind; [apply (pb_flags o update_words); [exact F|ne| |reflexivity|apply incl_refl|rewrite r_n_knot; len]|].
  { apply kw_assoc_none. cbn [forallb update_flags fst]. rewrite !(from_not_kw_head o ts l) by (exact Fr || reflexivity). reflexivity. }
  destruct n as [|n]; [lia|].
  eapply pa_bind; [apply pb_from; [exact Fr|ne|destruct K' as (v & -> & _); reflexivity|len]|].
  eapply pa_bind; [apply pb_kw; [exact K'|ne]|].
  eapply pa_bind; [apply (pb_list _ (column_is o) (fun n => col <- parse_column_path (r_n (knot n)) ;; consume_token TEq ;;; v <- r_expr (knot n) false ;; Ret (col, v)));
    [exact C|intros; now apply pb_column|ne|hd_tac H2|hd_tac H2|len]|].
  eapply pa_bind; [apply pb_where; [exact Wh|ne|hd_tac H1|hd_tac H1|len]|]. eapply pa_bind; [apply pb_returning; [exact R|exact Hu|len]|].
  eapply pa_bind; [apply pa_dialect|]. eapply (pa_bind o _ _ _ _ _ tt); [|apply pa_ret].
  destruct r as [[sr lr]|]; [|apply pa_ret]. destruct D as [D|D]; [discriminate|]. rewrite D. apply pa_ret.
Qed.
(** *** INSERT and REPLACE *)
Lemma pb_rows ts l us n : commas (row_is o) ts l -> us <> [] -> tok_eqb (hd_tok us) TComma = false -> length ts < n ->
  parses (sep_list (r_n (knot n)) (consume_token TLParen ;;;
                           vals <- sep_list_recovered (r_n (knot n)) ")" (r_expr (knot n) false) ;;
                           consume_token TRParen ;;;
                           Ret vals)) (ts ++ us) l us.
Proof.
  intros C U Cm L. apply (pb_sep o _ (row_is o) _ (fun _ => true) ts l n); auto; [|rewrite r_n_knot; lia].
  intros ts' a us' X U' _ L'. destruct X as [s1 vs s2 l' C']. norm. eapply pa_bind; [apply pb_tok; [ne|reflexivity]|].
  eapply pa_bind; [apply (pb_sep_rec o _ (expr_is o false) (r_expr (knot n) false) ")" vs l' n);
    [exact C'| |exact U'|len|rewrite r_n_knot; len]|].
  { intros ts0 a0 us0 X0 U0 H0 L0. apply pb_expr; auto. destruct H0 as [-> | ->]; reflexivity. }
  eapply pa_bind; [apply pb_tok; [exact U'|reflexivity]|apply pa_ret].
Qed.
Lemma ident_not_kw ts l us k : commas (ident_is o) ts l -> kw_reserved (KW k) = true -> is_kw (hd_tok (ts ++ us)) k = false.
Proof. intros [ts' q Q|ts' q s ts'' l' Q _] R; destruct Q as [t v s0 N]; cbn; now apply (name_head o t v). Qed.
Lemma pb_columns cs cl us n : columns_are o cs cl -> us <> [] -> tok_eqb (hd_tok us) TLParen = false -> length cs < n ->
  parses (p <- skip_token TLParen ;;
          match p with
             | Some _ =>
                 l <- sep_list_recovered n ")" consume_plain_identifier ;;
                 consume_token TRParen ;;;
                 Ret l
             | None => Ret []
             end) (cs ++ us) cl us.
Proof.
  intros [|s1 ts s2 l C] U P L; norm.
  - eapply pa_bind; [now apply pb_skip_tok_no|]. apply pa_ret.
  - eapply pa_bind; [apply pb_skip_tok; [ne|reflexivity]|]. cbn iota.
    eapply pa_bind; [apply (pb_sep_rec o _ (ident_is o) consume_plain_identifier ")" ts l n); [exact C|intros; now apply pb_ident|exact U|len|len]|].
    eapply pa_bind; [apply pb_tok; [exact U|reflexivity]|apply pa_ret].
Qed.
(** What may follow a source. *)
Lemma pb_source cl b ss sel val set us n : source_is o cl b ss sel val set -> heads (W "ON" :: W "RETURNING" :: ends) us -> (b = true -> heads (W "RETURNING" :: ends) us) -> length ss < n ->
  parses (parse_insert_source (knot n) cl) (ss ++ us) (sel, val, set) us.
Proof.
  intros S H Hb L. pose proof (heads_ne _ _ H) as U. destruct S as [t s ts l K C|b' ts q S|t s ts l Ec K C]; norm.
  - eapply pa_bind; [apply pb_token; discriminate|]. cbn [hd_tok fst].
    assert (E : is_kw t "SELECT" = false /\ is_kw t "VALUE" || is_kw t "VALUES" = true) by (destruct K as [(v & ->)|(v & ->)]; auto). destruct E as [-> ->].
    eapply pa_bind; [apply pb_consume; [ne|destruct K as [(? & ->)|(? & ->)]; reflexivity]|]. cbn [snd]. eapply pa_bind; [apply pb_rows; [exact C|exact U|hd_tac H|len]|apply pa_ret].
  - assert (P : P_select o b' ts q) by now apply grammar_parses. destruct P as (P1 & P2 & P3). destruct us as [|y us]; [congruence|].
    eapply pa_bind; [apply pb_token; ne|]. rewrite hd_app by exact P1. rewrite P2. eapply pa_bind; [apply P3; [exact L|]|apply pa_ret].
    destruct b'; [reflexivity| |].
    + change (fst y) with (hd_tok (y :: us)). unfold f_end, f_sel, stops_at. change (fst y) with (hd_tok (y :: us)).
      replace (stops (hd_tok (y :: us))) with true by (symmetry; hd_tac H). replace (is_kw (hd_tok (y :: us)) "AS") with false by (symmetry; hd_tac H).
      replace (tok_eqb (hd_tok (y :: us)) TComma) with false by (symmetry; hd_tac H). replace (is_kw (hd_tok (y :: us)) "FROM") with false by (symmetry; hd_tac H). reflexivity.
    + specialize (Hb eq_refl). unfold f_end, from. change (fst y) with (hd_tok (y :: us)). hd_tac Hb.
  - subst cl. eapply pa_bind; [apply pb_token; discriminate|]. cbn [hd_tok fst]. pose proof K as (v & E & _). rewrite E. cbn [is_kw kw_eqb String.eqb Ascii.eqb Bool.eqb orb]. rewrite <- E.
    eapply pa_bind; [apply pb_kw; [exact K|ne]|]. eapply pa_bind; [apply (pb_list _ (pair_is o) (fun n => parse_set_pair (knot n))); [exact C|intros; now apply pb_pair|exact U|hd_tac H|hd_tac H|len]|].
    eapply (pa_bind o _ _ _ _ _ tt); [apply pa_ret|apply pa_ret].
Qed.
Ltac kwt K := let v := fresh "v" in let E := fresh "E" in pose proof K as (v & E & _); rewrite E; cbn [is_kw kw_eqb String.eqb Ascii.eqb Bool.eqb orb hd_tok fst tok_eqb tok_tag Nat.eqb]; try (rewrite <- E; clear v E).
Lemma pb_target gs g us n : target_is o gs g -> heads [W "DO"] us -> length gs < n -> parses (parse_conflict_target n) (gs ++ us) g us.
Proof.
  intros G H L. pose proof (heads_ne _ _ H) as U. destruct G as [|s1 ts s2 l C|t s t' s' t2 v s2 K K' N]; norm; (eapply pa_bind; [apply pb_token; first [ne|discriminate]|]).
  - replace (tok_eqb (hd_tok us) TLParen) with false by (symmetry; hd_tac H). replace (is_kw (hd_tok us) "ON") with false by (symmetry; hd_tac H). apply pa_ret.
  - cbn [hd_tok fst tok_eqb tok_tag Nat.eqb]. eapply pa_bind; [apply pb_tok; [ne|reflexivity]|].
    eapply pa_bind; [apply pb_idents; [exact C|discriminate|reflexivity|len]|]. eapply pa_bind; [apply pb_tok; [exact U|reflexivity]|apply pa_ret].
  - cbn [hd_tok fst]. kwt K. eapply pa_bind; [eapply pa_bind; [apply pb_kw; [exact K|discriminate]|eapply pa_bind; [apply pb_kw; [exact K'|discriminate]|apply pa_ret]]|].
    eapply pa_bind; [apply pb_name; [exact N|exact U]|apply pa_ret].
Qed.
Lemma pb_action cs a us n : action_is o cs a -> heads (W "RETURNING" :: ends) us -> length cs < n -> parses (parse_conflict_action (knot n)) (cs ++ us) a us.
Proof.
  intros A H L. pose proof (heads_ne _ _ H) as U.
  destruct A as [t s t' s' K K'|t s t1 s1 t2 s2 ts l K K1 K2 C|t s t1 s1 t2 s2 ts l t3 s3 vs e K K1 K2 C K3 E]; norm; (eapply pa_bind; [apply pb_kw; [exact K|discriminate]|]);
    (eapply pa_bind; [apply pb_token; discriminate|]); cbn [hd_tok fst].
  - kwt K'. eapply pa_bind; [apply pb_kw; [exact K'|exact U]|apply pa_ret].
  - kwt K1. eapply pa_bind; [eapply pa_bind; [apply pb_kw; [exact K1|discriminate]|eapply pa_bind; [apply pb_kw; [exact K2|ne]|apply pa_ret]]|].
    eapply pa_bind; [apply (pb_list _ (assign_is o) (fun n => i <- consume_plain_identifier ;; consume_token TEq ;;; e <- r_expr (knot n) false ;; Ret (i, e)));
      [exact C|intros; now apply pb_assign|exact U|hd_tac H|hd_tac H|len]|].
    eapply pa_bind; [apply pb_token; exact U|]. replace (is_kw (hd_tok us) "WHERE") with false by (symmetry; hd_tac H). eapply pa_bind; apply pa_ret.
  - kwt K1. eapply pa_bind; [eapply pa_bind; [apply pb_kw; [exact K1|discriminate]|eapply pa_bind; [apply pb_kw; [exact K2|ne]|apply pa_ret]]|].
    eapply pa_bind; [apply (pb_list _ (assign_is o) (fun n => i <- consume_plain_identifier ;; consume_token TEq ;;; e <- r_expr (knot n) false ;; Ret (i, e)));
      [exact C|intros; now apply pb_assign|discriminate|pose proof K3 as (v3 & -> & _); reflexivity|pose proof K3 as (v3 & -> & _); reflexivity|len]|].
    eapply pa_bind; [apply pb_token; discriminate|]. cbn [hd_tok fst]. kwt K3. eapply pa_bind; [|apply pa_ret].
    eapply pa_bind; [apply pb_kw; [exact K3|ne]|]. eapply pa_bind; [apply pb_expr; [exact E|exact U|hd_tac H|len]|apply pa_ret].
Qed.
Lemma action_head cs a us : action_is o cs a -> heads [W "DO"] (cs ++ us).
Proof. destruct 1; norm; (eapply heads_kw; [eassumption|now left]). Qed.
Lemma pb_insert_on ons dup conf us n : insert_on_is o ons dup conf -> heads (W "RETURNING" :: ends) us -> length ons < n ->
  parses (parse_insert_on (knot n)) (ons ++ us) (dup, conf) us.
Proof.
  intros A H L. pose proof (heads_ne _ _ H) as U.
  destruct A as [|t s t1 s1 t2 s2 t3 s3 ts l D K K1 K2 K3 C|t s t1 s1 gs g cs a D K K1 G A]; norm; (eapply pa_bind; [apply pb_token; first [exact U|discriminate]|]).
  - replace (is_kw (hd_tok us) "ON") with false by (symmetry; hd_tac H). apply pa_ret.
  - cbn [hd_tok fst]. kwt K. eapply pa_bind; [apply pb_kw; [exact K|discriminate]|]. eapply pa_bind; [apply pb_token; discriminate|]. cbn [hd_tok fst]. kwt K1.
    eapply pa_bind; [eapply pa_bind; [apply pb_kw; [exact K1|discriminate]|eapply pa_bind; [apply pb_kw; [exact K2|discriminate]|eapply pa_bind; [apply pb_kw; [exact K3|ne]|apply pa_ret]]]|].
    eapply pa_bind; [apply (pb_list _ (pair_is o) (fun n => parse_set_pair (knot n))); [exact C|intros; now apply pb_pair|exact U|hd_tac H|hd_tac H|len]|].
    eapply pa_bind; [apply pa_dialect|]. rewrite D. eapply pa_bind; apply pa_ret.
  - cbn [hd_tok fst]. kwt K. eapply pa_bind; [apply pb_kw; [exact K|discriminate]|]. eapply pa_bind; [apply pb_token; discriminate|]. cbn [hd_tok fst]. kwt K1.
    eapply pa_bind; [apply pb_kw; [exact K1|ne]|]. eapply pa_bind; [apply pb_target; [exact G|eapply action_head; exact A|rewrite r_n_knot; len]|].
    eapply pa_bind; [apply pb_action; [exact A|exact H|len]|]. eapply pa_bind; [apply pa_dialect|]. rewrite D. eapply pa_bind; apply pa_ret.
Qed.
Lemma pb_check_flags b fs fl us : flags_of o (if b : bool then insert_words else replace_words) fs fl -> parses (check_insert_flags b fl) us tt us.
Proof.
  intros F. remember (if b then insert_words else replace_words) as tbl eqn:E. induction F as [|k c t s ts l I K F IH]; cbn [check_insert_flags tag]; [apply pa_ret|]. eapply (pa_bind o _ _ _ _ _ tt); [|now apply IH].
  destruct b; cbn [negb andb]; [rewrite andb_false_r; apply pa_ret|]. subst tbl. cbn in I. destruct I as [I|[I|[]]]; injection I as <- <-; apply pa_ret.
Qed.
Lemma insert_on_head ons dup conf us : insert_on_is o ons dup conf -> heads (W "RETURNING" :: ends) us -> heads (W "ON" :: W "RETURNING" :: ends) (ons ++ us).
Proof.
  intros A H. apply heads_app; [eapply heads_sub; [exact H|apply incl_tl, incl_refl]|]. destruct A; [now left|right; eapply heads_kw; [eassumption|now left]..].
Qed.
Lemma source_head cl b ss sel val set us : source_is o cl b ss sel val set -> heads [W "VALUE"; W "VALUES"; W "SELECT"; W "SET"] (ss ++ us).
Proof.
  intros S. destruct S as [t s ts l K C|b' ts q S|t s ts l Ec K C]; norm.
  - destruct K as [(v & ->)|(v & ->)]; (split; [discriminate|]); [exists (W "VALUES")|exists (W "VALUE")]; (split; [cbn; auto|]); right; eexists _, _, _; split; reflexivity.
  - assert (X : exists t s us, ts = (t, s) :: us /\ kw_tok "SELECT" t) by (inversion S; subst; eauto 8). destruct X as (t & s & vs & -> & K). norm. eapply heads_kw; [exact K|cbn; auto].
  - eapply heads_kw; [exact K|cbn; auto].
Qed.
Lemma pb_insert ts x us n : insert_is o ts x -> heads ends us -> length ts < n -> parses (parse_insert_replace (knot n)) (ts ++ us) x us.
Proof.
  intros H Hu L. destruct H as [t s c tbl fs fl is i qs q cs cl b ss sel val set ons dup conf rs r K F I Q C S O Ob R]; norm.
  assert (H1 : heads (W "RETURNING" :: ends) (rs ++ us)) by (eapply returning_head; [exact R|eapply heads_sub; [exact Hu|apply incl_tl, incl_refl]|now left]).
  assert (H2 : heads (W "ON" :: W "RETURNING" :: ends) (ons ++ rs ++ us)) by (eapply insert_on_head; eauto).
  assert (H3 : heads [W "VALUE"; W "VALUES"; W "SELECT"; W "SET"] (ss ++ ons ++ rs ++ us)) by (eapply source_head; eauto).
  assert (H4 : heads [TLParen; W "VALUE"; W "VALUES"; W "SELECT"; W "SET"] (cs ++ ss ++ ons ++ rs ++ us)).
  { apply heads_app; [eapply heads_sub; [exact H3|apply incl_tl, incl_refl]|]. destruct C; [now left|right; apply heads_tok; now left]. }
  eapply pa_bind; [apply pb_token; discriminate|]. cbn [hd_tok fst].
  eapply (pa_bind o _ _ _ _ _ (mkTag c s) (fs ++ is ++ qs ++ cs ++ ss ++ ons ++ rs ++ us)).
  { destruct K as [t (v & ->)|t (v & ->)]; cbn [is_kw kw_eqb String.eqb Ascii.eqb Bool.eqb]; (eapply pa_bind; [apply pb_consume; [ne|np]|apply pa_ret]). }
  assert (X : exists b : bool, c = (if b then "Insert" else "Replace") /\ tbl = (if b then insert_words else replace_words)) by (destruct K; [exists true|exists false]; auto).
  destruct X as (ib & -> & ->). cbn zeta. cbn [tag]. replace (String.eqb (if ib then "Insert" else "Replace") "Insert") with ib by now destruct ib.
  assert (In_ : forall k, kw_reserved (KW k) = true -> is_kw (hd_tok (qs ++ cs ++ ss ++ ons ++ rs ++ us)) k = false) by (intros; now apply (qname_not_kw o qs q)).
  assert (A : kw_assoc insert_flags (hd_tok (is ++ qs ++ cs ++ ss ++ ons ++ rs ++ us)) = None).
  { apply kw_assoc_none. destruct I as [|ti si Ki]; cbn [app forallb insert_flags fst]; [now rewrite !In_|]. cbn [hd_tok fst]. pose proof Ki as (vi & -> & _). reflexivity. }
  eapply pa_bind; [apply (pb_flags o (if ib then insert_words else replace_words)); [exact F|ne|exact A|reflexivity| |rewrite r_n_knot; len]|].
  { destruct ib; [apply incl_refl|]. intros y [<-|[<-|[]]]; cbn; auto. }
  eapply pa_bind; [apply (pb_check_flags ib fs); exact F|].
  eapply pa_bind; [apply pb_opt; [exact I|ne|now apply In_]|].
  eapply pa_bind; [apply pb_qname; [exact Q|ne|hd_tac H4|rewrite r_n_knot; len]|].
  apply pa_assoc. eapply pa_bind; [apply pb_columns; [exact C|ne|hd_tac H3|rewrite r_n_knot; len]|].
  eapply pa_bind; [eapply pb_source; [exact S|exact H2| |len]|]. { intros Eb. rewrite (Ob Eb). exact H1. }
  cbn iota. eapply pa_bind; [apply pb_insert_on; [exact O|exact H1|len]|]. cbn iota.
  eapply pa_bind; [apply pb_returning; [exact R|exact Hu|len]|]. apply pa_ret.
Qed.
(** *** SET, SIGNAL and RETURN *)
Lemma pb_set ts x us n : set_is o ts x -> heads ends us -> length ts < n -> parses (parse_set (knot n)) (ts ++ us) x us.
Proof.
  intros [t s ts' l K C] H L. norm. pose proof (heads_ne _ _ H) as U. eapply pa_bind; [apply pb_kw; [exact K|ne]|].
  eapply pa_bind; [apply (pb_list _ (assign_is o) (fun n => i <- consume_plain_identifier ;; consume_token TEq ;;; e <- r_expr (knot n) false ;; Ret (i, e)));
      [exact C|intros; now apply pb_assign|exact U|hd_tac H|hd_tac H|len]|]. apply pa_ret.
Qed.
Lemma pb_item ts x us n : item_is o ts x -> us <> [] -> stops (hd_tok us) = true -> length ts < n -> parses (parse_signal_set (knot n)) (ts ++ us) x us.
Proof.
  intros [k c t s e ts' y I (v & ->) E] U S L. norm. cbn [length] in L. eapply pa_bind; [apply pb_token; discriminate|]. cbn [hd_tok fst].
  rewrite (kw_assoc_in signal_names v k c eq_refl I). eapply pa_bind; [eapply pa_bind; [apply pb_consume; [discriminate|np]|apply pa_ret]|].
  eapply pa_bind; [apply pb_tok; [ne|reflexivity]|]. eapply pa_bind; [apply pb_expr; [exact E|exact U|exact S|lia]|]. apply pa_ret.
Qed.
Lemma expr_ne inner ts e us : expr_is o inner ts e -> ts ++ us <> [] /\ hd_tok (ts ++ us) = hd_tok ts.
Proof. intros E. apply expr_parses in E as (_ & H & _). destruct ts; [cbn in H; lia|]. now split. Qed.
Lemma pb_signal ts x us n : signal_is o ts x -> heads ends us -> length ts < n -> parses (parse_signal (knot n)) (ts ++ us) x us.
Proof.
  intros [t s t' s' vs v es e ss set l K K' V E Ev S] H L. norm. pose proof (heads_ne _ _ H) as U.
  assert (H1 : heads (W "SET" :: ends) (ss ++ us)).
  { apply heads_app; [eapply heads_sub; [exact H|apply incl_tl, incl_refl]|]. destruct S; [now left|right; eapply heads_kw; [eassumption|now left]]. }
  destruct (expr_ne false es e (ss ++ us) E) as [E1 E2].
  eapply pa_bind; [apply pb_kw; [exact K|discriminate]|]. eapply pa_bind; [apply pb_kw; [exact K'|ne]|].
  eapply (pa_bind o _ _ _ _ _ v (es ++ ss ++ us)).
  { destruct V as [|tv sv Kv]; norm; [apply pb_skip_no; [ne|rewrite E2; now apply Ev]|apply pb_skip; [exact Kv|ne]]. }
  eapply pa_bind; [apply pb_expr; [exact E|ne|hd_tac H1|len]|].
  destruct S as [|ts' s0 vs' l Ks C]; norm.
  - eapply pa_bind; [apply pb_skip_no; [ne|hd_tac H]|]. cbn iota. eapply pa_bind; apply pa_ret.
  - eapply pa_bind; [apply pb_skip; [exact Ks|ne]|]. cbn iota.
    eapply pa_bind; [apply (pb_list _ (item_is o) (fun n => parse_signal_set (knot n))); [exact C|intros; now apply pb_item|exact U|hd_tac H|hd_tac H|len]|apply pa_ret].
Qed.
Lemma pb_return ts x us n : return_is o ts x -> heads ends us -> length ts < n -> parses (parse_return (knot n)) (ts ++ us) x us.
Proof.
  intros [t s ts' e K E] H L. norm. pose proof (heads_ne _ _ H) as U. eapply pa_bind; [apply pb_kw; [exact K|ne]|].
  eapply pa_bind; [apply pb_expr; [exact E|exact U|hd_tac H|len]|]. apply pa_ret.
Qed.
(** *** DROP, TRUNCATE and RENAME *)
Lemma if_exists_head is i us ps : if_exists_is o is i -> heads ps us -> In (W "IF") ps -> heads ps (is ++ us).
Proof. intros I H J. apply heads_app; [exact H|]. destruct I; [now left|right; eapply heads_kw; eauto]. Qed.
Lemma pb_drop ts x us n : drop_is o ts x -> heads ends us -> length ts < n -> parses (parse_drop n) (ts ++ us) x us.
Proof.
  intros X H L. pose proof (heads_ne _ _ H) as U.
  destruct X as [t s ps p t' s' is i ts l cs c K P K' I C Cs D|t s ps p t' s' is i ts l K P K' I C|t s k Kd t' s' is i ts q Ik K K' I Q|t s k Kd t' s' is i t2 v s2 Ik K K' I N
    |t s t' s' is i t2 v s2 K K' I N D|t s t' s' is i t2 v s2 t3 s3 ts q K K' I N K3 Q D]; norm.
  - assert (H1 : heads (W "CASCADE" :: ends) (cs ++ us)).
    { apply heads_app; [eapply heads_sub; [exact H|apply incl_tl, incl_refl]|]. destruct Cs; [now left|right; eapply heads_kw; [eassumption|now left]]. }
    eapply pa_bind; [apply pb_kw; [exact K|ne]|]. eapply pa_bind; [apply pb_opt; [exact P|discriminate|cbn [hd_tok fst]; now kwt K']|].
    eapply pa_bind; [apply pb_token; discriminate|]. cbn [hd_tok fst]. kwt K'. eapply pa_bind; [apply pb_kw; [exact K'|ne]|].
    eapply pa_bind; [apply pb_if_exists; [exact I|ne|now apply (qnames_not_kw o ts l)]|].
    eapply pa_bind; [apply pb_qnames; [exact C|ne|hd_tac H1|hd_tac H1|len]|]. eapply pa_bind; [apply pa_dialect|].
    eapply (pa_bind o _ _ _ _ _ c us); [|apply pa_ret]. destruct (is_postgresql (o_dialect o)) eqn:Ed; [apply pb_opt; [exact Cs|ne|hd_tac H]|].
    destruct D as [-> |D]; [|rewrite D in Ed; discriminate]. inversion Cs; subst. apply pa_ret.
  - eapply pa_bind; [apply pb_kw; [exact K|ne]|]. eapply pa_bind; [apply pb_opt; [exact P|discriminate|cbn [hd_tok fst]; now kwt K']|].
    eapply pa_bind; [apply pb_token; discriminate|]. cbn [hd_tok fst]. kwt K'. eapply pa_bind; [apply pb_kw; [exact K'|ne]|].
    eapply pa_bind; [apply pb_if_exists; [exact I|ne|now apply (qnames_not_kw o ts l)]|].
    eapply pa_bind; [apply pb_qnames; [exact C|ne|hd_tac H|hd_tac H|len]|]. apply pa_ret.
  - assert (B : parses (parse_drop_q n s k) ((t', s') :: is ++ ts ++ us) (mkDropQ s s' i q) us).
    { eapply pa_bind; [apply pb_kw; [exact K'|ne]|]. eapply pa_bind; [apply pb_if_exists; [exact I|ne|now apply (qname_not_kw o ts q)]|].
      eapply pa_bind; [apply pb_qname; [exact Q|ne|hd_tac H|len]|]. apply pa_ret. }
    eapply pa_bind; [apply pb_kw; [exact K|ne]|].
    eapply pa_bind; [apply pb_skip_no; [discriminate|]; cbn [hd_tok fst]; cbn in Ik; repeat (destruct Ik as [E|Ik]; [injection E as <- <-; now kwt K'|]); destruct Ik|].
    eapply pa_bind; [apply pb_token; discriminate|]. cbn [hd_tok fst]. cbn in Ik.
    repeat (destruct Ik as [E|Ik]; [injection E as <- <-; kwt K'; eapply pa_bind; [exact B|apply pa_ret]|]). destruct Ik.
  - assert (B : parses (parse_drop_i s k) ((t', s') :: is ++ (t2, s2) :: us) (mkDropI s s' i (mkIdent v s2)) us).
    { eapply pa_bind; [apply pb_kw; [exact K'|ne]|]. eapply pa_bind; [apply pb_if_exists; [exact I|ne|now apply (name_head o t2 v)]|].
      eapply pa_bind; [apply pb_name; [exact N|ne]|]. apply pa_ret. }
    eapply pa_bind; [apply pb_kw; [exact K|ne]|].
    eapply pa_bind; [apply pb_skip_no; [discriminate|]; cbn [hd_tok fst]; cbn in Ik; repeat (destruct Ik as [E|Ik]; [injection E as <- <-; now kwt K'|]); destruct Ik|].
    eapply pa_bind; [apply pb_token; discriminate|]. cbn [hd_tok fst]. cbn in Ik.
    repeat (destruct Ik as [E|Ik]; [injection E as <- <-; kwt K'; eapply pa_bind; [exact B|apply pa_ret]|]). destruct Ik.
  - eapply pa_bind; [apply pb_kw; [exact K|ne]|]. eapply pa_bind; [apply pb_skip_no; [discriminate|cbn [hd_tok fst]; now kwt K']|].
    eapply pa_bind; [apply pb_token; discriminate|]. cbn [hd_tok fst]. kwt K'. eapply pa_bind; [|apply pa_ret].
    eapply pa_bind; [apply pb_kw; [exact K'|ne]|]. eapply pa_bind; [apply pb_if_exists; [exact I|ne|now apply (name_head o t2 v)]|].
    eapply pa_bind; [apply pb_name; [exact N|ne]|]. eapply pa_bind; [apply pb_skip_no; [ne|hd_tac H]|]. cbn iota. eapply pa_bind; [apply pa_ret|].
    cbn zeta. eapply pa_bind; [apply pa_dialect|]. cbn [is_some negb andb]. eapply (pa_bind o _ _ _ _ _ tt); [destruct (o_dialect o); [congruence|apply pa_ret..]|].
    eapply (pa_bind o _ _ _ _ _ tt); apply pa_ret.
  - eapply pa_bind; [apply pb_kw; [exact K|ne]|]. eapply pa_bind; [apply pb_skip_no; [discriminate|cbn [hd_tok fst]; now kwt K']|].
    eapply pa_bind; [apply pb_token; discriminate|]. cbn [hd_tok fst]. kwt K'. eapply pa_bind; [|apply pa_ret].
    eapply pa_bind; [apply pb_kw; [exact K'|ne]|]. eapply pa_bind; [apply pb_if_exists; [exact I|ne|now apply (name_head o t2 v)]|].
    eapply pa_bind; [apply pb_name; [exact N|ne]|]. eapply pa_bind; [apply pb_skip; [exact K3|ne]|]. cbn iota.
    eapply pa_bind; [eapply pa_bind; [apply pb_qname; [exact Q|ne|hd_tac H|len]|apply pa_ret]|].
    cbn zeta. eapply pa_bind; [apply pa_dialect|]. cbn [is_some negb andb]. eapply (pa_bind o _ _ _ _ _ tt); [apply pa_ret|].
    eapply (pa_bind o _ _ _ _ _ tt); [destruct (o_dialect o); [apply pa_ret|congruence|apply pa_ret]|apply pa_ret].
Qed.
Lemma pb_truncate ts x us n : truncate_is o ts x -> heads ends us -> length ts < n -> parses (parse_truncate_table n) (ts ++ us) x us.
Proof.
  intros [t s ws w ts' q K O Q] H L. norm. eapply pa_bind; [apply pb_kw; [exact K|ne]|].
  eapply pa_bind; [apply pb_opt; [exact O|ne|now apply (qname_not_kw o ts' q)]|].
  eapply pa_bind; [apply pb_qname; [exact Q|ne|hd_tac H|len]|]. apply pa_ret.
Qed.
Lemma renamed_not_kw ts l us k : commas (renamed_is o) ts l -> kw_reserved (KW k) = true -> is_kw (hd_tok (ts ++ us)) k = false.
Proof. intros [ts' a X|ts' a s ts'' l' X _] R; destruct X as [ts1 q t1 s1 us1 q' Q K Q']; rewrite <- !app_assoc; now apply (qname_not_kw o ts1 q). Qed.
Lemma pb_rename ts x us n : rename_is o ts x -> heads ends us -> length ts < n -> parses (parse_rename_table n) (ts ++ us) x us.
Proof.
  intros [t s ws w ts' l K O C] H L. norm. eapply pa_bind; [apply pb_kw; [exact K|ne]|].
  eapply pa_bind; [apply pb_opt; [exact O|ne|now apply (renamed_not_kw ts' l)]|]. eapply pa_bind; [|apply pa_ret].
  apply (pb_sep o _ (renamed_is o) _ (fun t => negb (tok_eqb t TPeriod)) ts' l n); [exact C|reflexivity| |ne|hd_tac H|hd_tac H|len|len].
  intros ts0 a us0 X U0 Q0 L0. apply negb_true_iff in Q0. destruct X as [ts1 q t1 s1 us1 q' Q K1 Q']. norm.
  eapply pa_bind; [apply pb_qname; [exact Q|ne|cbn [hd_tok fst]; now kwt K1|len]|]. eapply pa_bind; [apply pb_kw; [exact K1|ne]|].
  eapply pa_bind; [apply pb_qname; [exact Q'|ne|exact Q0|len]|]. apply pa_ret.
Qed.
(** *** Any of them *)
Definition first_words : list tok :=
  [W "DELETE"; W "UPDATE"; W "INSERT"; W "REPLACE"; W "SET"; W "SIGNAL"; W "RETURN"; W "DROP"; W "TRUNCATE"; W "RENAME"].
Lemma simple_parses ts x : simple_is o ts x -> heads first_words ts /\ reads_from_stdin x = false /\
  forall n us, heads ends us -> length ts < n -> parses (parse_statement (knot n)) (ts ++ us) (Some x) us.
Proof.
  Ltac start K := split; [eapply heads_kw; [exact K|cbn; tauto]|]; split; [reflexivity|]; intros n us H L;
    norm; (eapply pa_bind; [apply pb_token; discriminate|]); cbn [hd_tok fst]; kwt K; (eapply pa_bind; [|apply pa_ret]).
  intros [ts' y X|ts' y X|ts' y X|ts' y X|ts' y X|ts' y X|ts' y X|ts' y X|ts' y X].
  all: pose proof X as X'.
  - assert (K : exists t s us, ts' = (t, s) :: us /\ kw_tok "DELETE" t) by (destruct X; eauto 8). destruct K as (t & s & vs & E & K). rewrite E in *. clear X.
    start K. change ((t, s) :: vs ++ us) with (((t, s) :: vs) ++ us). now apply pb_delete.
  - assert (K : exists t s us, ts' = (t, s) :: us /\ kw_tok "UPDATE" t) by (destruct X; eauto 8). destruct K as (t & s & vs & E & K). rewrite E in *. clear X.
    start K. change ((t, s) :: vs ++ us) with (((t, s) :: vs) ++ us). now apply pb_update.
  - assert (K : exists t s us, ts' = (t, s) :: us /\ (any_case "INSERT" t \/ any_case "REPLACE" t)).
    { destruct X as [t s c tbl fs fl is i qs q cs cl b ss sel val set ons dup conf rs r K]. destruct K; eauto 8. } destruct K as (t & s & vs & E & K). rewrite E in *. clear X.
    split.
    { split; [discriminate|]. cbn [hd_tok fst]. destruct K as [(v & ->)|(v & ->)]; [exists (W "INSERT")|exists (W "REPLACE")]; (split; [cbn; tauto|]); right; eexists _, _, _; split; reflexivity. }
    split; [reflexivity|]. intros n us H L. norm. eapply pa_bind; [apply pb_token; discriminate|]. cbn [hd_tok fst].
    assert (Kt : is_kw t "CREATE" = false /\ is_kw t "DROP" = false /\ is_kw t "SELECT" || tok_eqb t TLParen = false /\ is_kw t "DELETE" = false /\ is_kw t "INSERT" || is_kw t "REPLACE" = true)
      by (destruct K as [(v & ->)|(v & ->)]; repeat split; reflexivity). destruct Kt as (-> & -> & -> & -> & ->). eapply pa_bind; [|apply pa_ret].
    change ((t, s) :: vs ++ us) with (((t, s) :: vs) ++ us). now apply pb_insert.
  - assert (K : exists t s us, ts' = (t, s) :: us /\ kw_tok "SET" t) by (destruct X; eauto 8). destruct K as (t & s & vs & E & K). rewrite E in *. clear X.
    start K. change ((t, s) :: vs ++ us) with (((t, s) :: vs) ++ us). now apply pb_set.
  - assert (K : exists t s us, ts' = (t, s) :: us /\ kw_tok "SIGNAL" t) by (destruct X; eauto 8). destruct K as (t & s & vs & E & K). rewrite E in *. clear X.
    start K. change ((t, s) :: vs ++ us) with (((t, s) :: vs) ++ us). now apply pb_signal.
  - assert (K : exists t s us, ts' = (t, s) :: us /\ kw_tok "RETURN" t) by (destruct X; eauto 8). destruct K as (t & s & vs & E & K). rewrite E in *. clear X.
    start K. change ((t, s) :: vs ++ us) with (((t, s) :: vs) ++ us). now apply pb_return.
  - assert (K : exists t s us, ts' = (t, s) :: us /\ kw_tok "DROP" t) by (destruct X; eauto 8). destruct K as (t & s & vs & E & K). rewrite E in *.
    split; [eapply heads_kw; [exact K|cbn; tauto]|]. split.
    { destruct X; try reflexivity; cbn in *; repeat match goal with I : _ \/ _ |- _ => destruct I as [I|I]; [injection I as <- <-; reflexivity|] end; contradiction. }
    clear X. intros n us H L. norm. eapply pa_bind; [apply pb_token; discriminate|]. cbn [hd_tok fst]. kwt K. eapply pa_bind; [|apply pa_ret].
    change ((t, s) :: vs ++ us) with (((t, s) :: vs) ++ us). apply pb_drop; auto. rewrite r_n_knot. lia.
  - assert (K : exists t s us, ts' = (t, s) :: us /\ kw_tok "TRUNCATE" t) by (destruct X; eauto 8). destruct K as (t & s & vs & E & K). rewrite E in *. clear X.
    start K. change ((t, s) :: vs ++ us) with (((t, s) :: vs) ++ us). apply pb_truncate; auto. rewrite r_n_knot. lia.
  - assert (K : exists t s us, ts' = (t, s) :: us /\ kw_tok "RENAME" t) by (destruct X; eauto 8). destruct K as (t & s & vs & E & K). rewrite E in *. clear X.
    start K. change ((t, s) :: vs ++ us) with (((t, s) :: vs) ++ us). apply pb_rename; auto. rewrite r_n_knot. lia.
Qed.
End Statements.
