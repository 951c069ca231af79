(** The parser reads what the grammar generates: clauses, tables and queries, and the result. *)
From Verif Require Export GrammarOps.
Local Open Scope string_scope.
Local Open Scope list_scope.

Section Cases.
Variable o : reading.
Notation word_tok := (word_tok o). Notation dotted := (dotted o). Notation kw_tok := (kw_tok o). Notation name_tok := (name_tok o).
Notation P_operand := (P_operand o). Notation P_items := (P_items o). Notation P_expr := (P_expr o). Notation P_list := (P_list o).
Notation P_sep := (P_sep o). Notation P_one := (P_one o). Notation parses := (parses o).
Notation P_value := (P_value o). Notation P_whens := (P_whens o). Notation P_else := (P_else o). Notation P_head := (P_head o).
Notation P_selected := (P_selected o). Notation P_selection := (P_selection o). Notation P_table := (P_table o). Notation P_on := (P_on o).
Notation P_tables := (P_tables o). Notation P_from := (P_from o). Notation P_cond := (P_cond o). Notation P_exprs := (P_exprs o).
Notation P_group := (P_group o). Notation P_sorted := (P_sorted o). Notation P_order := (P_order o). Notation P_limit := (P_limit o).
Notation P_select := (P_select o). Notation P_bottom := (P_bottom o). Notation P_unions := (P_unions o). Notation P_query := (P_query o).

(** ** What is selected *)
Lemma c_selected ts e : P_expr false ts e -> P_selected ts (mkSelectExpr e None).
Proof.
  intros H. pose proof H as (H1 & H2 & _). split; [exact H1|]. split; [exact H2|]. intros n y rest L F. apply andb_prop in F as [F1 F2]. apply negb_true_iff in F2.
  destruct n as [|n]; [lia|]. eapply pa_bind; [apply (pa_r_expr o false ts e n y rest H); [lia|exact F1]|].
  eapply pa_bind; [now apply pa_skip_keyword_no|]. cbn iota. eapply pa_bind; [apply pa_ret|apply pa_ret].
Qed.
Lemma c_selected_as ts e t1 s1 t2 v s2 : P_expr false ts e -> kw_tok "AS" t1 -> name_tok t2 v ->
  P_selected (ts ++ [(t1, s1); (t2, s2)]) (mkSelectExpr e (Some (mkIdent v s2))).
Proof.
  intros H K N. pose proof H as (H1 & H2 & _). split; [now rewrite hd_app|]. split; [rewrite app_length; lia|]. intros n y rest L F.
  rewrite app_length in L. destruct n as [|n]; [lia|]. rewrite <- app_assoc. cbn [app].
  eapply pa_bind; [apply (pa_r_expr o false ts e n (t1, s1) ((t2, s2) :: y :: rest) H); [lia|]|].
  { apply stops_stops_at. now apply (kw_stops o "AS"). }
  eapply pa_bind; [now apply pa_skip_keyword|]. cbn iota. eapply pa_bind; [eapply pa_bind; [eapply pa_name; exact N|apply pa_ret]|apply pa_ret].
Qed.
Lemma c_selection_one ts e : P_selected ts e -> P_selection ts [e].
Proof. intros [H1 H2]. split; [exact H1|]. now apply P_sep_one. Qed.
Lemma c_selection_more ts e s ts' l : P_selected ts e -> P_selection ts' l -> P_selection (ts ++ (TComma, s) :: ts') (e :: l).
Proof. intros [H1 H2] [_ H3]. split; [rewrite hd_app; [exact H1|apply H2]|]. apply P_sep_more; [exact H2|exact H3|reflexivity]. Qed.

(** ** Tables *)
Lemma pa_qname_from ts q t v s d p i : qname_is o ts q -> ts = (t, s) :: d -> name_tok t v -> q = mkQName p i ->
  forall m acc y rest, tok_eqb (fst y) TPeriod = false -> length ts <= m ->
  parses (loop m (fun q : list (ident * span) * ident =>
            d <- skip_token TPeriod ;;
            match d with
            | None => Ret (inr (mkQName (fst q) (snd q)))
            | Some dot =>
                i <- consume_plain_identifier ;;
                Ret (inl (fst q ++ [(snd q, dot)], i))
            end) (acc, mkIdent v s)) (d ++ y :: rest) (mkQName (acc ++ p) i) (y :: rest).
Proof.
  intros H. revert t v s d p i. induction H as [t v s N|t v s dt ts p i N H IH]; intros t' v' s' d p' i' E N' Q m acc y rest F L.
  - injection E as <- <- <-. injection Q as <- <-. cbn in L. destruct m as [|m]; [lia|]. cbn [loop app].
    assert (Ev : v' = v).
    { destruct N as [(k & -> & _)|[[-> _]|[-> _]]], N' as [(k' & E' & _)|[[E' _]|[E' _]]]; congruence. }
    subst v'. eapply pa_bind; [eapply pa_bind; [now apply pa_skip_token_no|apply pa_ret]|]. cbn iota. rewrite app_nil_r. apply pa_ret.
  - injection E as <- <- <-. injection Q as <- <-. cbn [length] in L. destruct m as [|m]; [lia|]. cbn [loop app].
    assert (Ev : v' = v).
    { destruct N as [(k & -> & _)|[[-> _]|[-> _]]], N' as [(k' & E' & _)|[[E' _]|[E' _]]]; congruence. }
    subst v'. assert (X : exists t1 v1 s1 d1, ts = (t1, s1) :: d1 /\ name_tok t1 v1) by (inversion H; eauto 8).
    destruct X as (t1 & v1 & s1 & d1 & -> & N1). cbn [app]. destruct (cons_app d1 y rest) as (z & zs & Z). rewrite Z.
    eapply pa_bind; [eapply pa_bind; [now apply pa_skip_token|]; cbn iota; eapply pa_bind; [eapply pa_name; exact N1|apply pa_ret]|].
    cbn iota. cbn [fst snd]. rewrite <- Z. replace (acc ++ (mkIdent v s, dt) :: p) with ((acc ++ [(mkIdent v s, dt)]) ++ p) by now rewrite <- app_assoc.
    apply (IH t1 v1 s1 d1 p i); auto. cbn [length] in *. lia.
Qed.
(** C42 *)
Lemma pa_qname ts q m y rest : qname_is o ts q -> tok_eqb (fst y) TPeriod = false -> length ts <= m ->
  parses (parse_qualified_name m) (ts ++ y :: rest) q (y :: rest).
Proof.
  intros H F L. destruct q as [p i].
  assert (X : exists t1 v1 s1 d1, ts = (t1, s1) :: d1 /\ name_tok t1 v1) by (inversion H; eauto 8).
  destruct X as (t1 & v1 & s1 & d1 & E & N1). rewrite E at 1. cbn [app]. destruct (cons_app d1 y rest) as (z & zs & Z). rewrite Z.
  eapply pa_bind; [eapply pa_name; exact N1|]. rewrite <- Z. apply (pa_qname_from ts (mkQName p i) t1 v1 s1 d1 p i H E N1 eq_refl m []); auto.
Qed.
Lemma qname_len ts q : qname_is o ts q -> 0 < length ts.
Proof. destruct 1; cbn; lia. Qed.
(** Follow sets of tables. *)
Lemma f_tab_cases y rest : f_tab y rest = true ->
  (fst y = TEof \/ fst y = TSemiColon \/ fst y = TDoubleDollar \/ fst y = TRParen \/ fst y = TComma) \/ exists v k, fst y = TIdent v (KW k) /\ In k tab_words.
Proof.
  unfold f_tab. destruct (fst y) eqn:E; try discriminate; auto 6. destruct k as [| |k]; try discriminate. intros H. right. exists t, k. split; [reflexivity|].
  apply existsb_exists in H as (x & I & Ex). apply String.eqb_eq in Ex. now subst x.
Qed.
Ltac f_tab_tac H := apply f_tab_cases in H as [[H|[H|[H|[H|H]]]]|(?v & ?k & H & I)]; rewrite ?H; [reflexivity|reflexivity|reflexivity|reflexivity|reflexivity|];
  cbn in I; repeat (destruct I as [<-|I]; [reflexivity|]); destruct I.
Lemma f_tab_period y rest : f_tab y rest = true -> tok_eqb (fst y) TPeriod = false.
Proof. intros H. f_tab_tac H. Qed.
Lemma f_tab_as y rest : f_tab y rest = true -> is_kw (fst y) "AS" = false.
Proof. intros H. f_tab_tac H. Qed.
Lemma f_tab_reserved y rest : f_tab y rest = true -> is_unreserved (fst y) = false.
Proof. intros H. f_tab_tac H. Qed.
Lemma f_tab_hint y rest : f_tab y rest = true -> kw_assoc hint_uses (fst y) = None.
Proof. intros H. f_tab_tac H. Qed.
(** What may follow an optional alias. *)
Definition f_alias (t : tok) : bool := negb (tok_eqb t TPeriod) && negb (is_kw t "AS") && negb (is_unreserved t).
Lemma f_tab_alias y rest : f_tab y rest = true -> f_alias (fst y) = true.
Proof. intros H. unfold f_alias. rewrite (f_tab_period y rest H), (f_tab_as y rest H), (f_tab_reserved y rest H). reflexivity. Qed.
Lemma hints_alias hs h y rest : hints_are o hs h -> f_tab y rest = true -> exists z zs, hs ++ y :: rest = z :: zs /\ f_alias (fst z) = true.
Proof.
  intros H F. destruct (hints_hd o _ _ H) as [->|(k & v & I & E)].
  - exists y, rest. split; [reflexivity|now apply (f_tab_alias y rest)].
  - destruct hs as [|z hs]; [discriminate E|]. exists z, (hs ++ y :: rest). split; [reflexivity|]. cbn [hd_tok] in E. rewrite E.
    cbn in I. repeat (destruct I as [<-|I]; [reflexivity|]). destruct I.
Qed.
Lemma f_tab_no_hint y rest : f_tab y rest = true -> no_hint (fst y) = true.
Proof. intros H. f_tab_tac H. Qed.
Lemma name_not_as t v : name_tok t v -> is_kw t "AS" = false /\ is_kw t "SELECT" = false /\ tok_eqb t TLParen = false.
Proof.
  intros [(k & -> & R & _)|[[-> _]|[-> _]]]; try (repeat split; reflexivity). destruct k as [| |k]; try (repeat split; reflexivity).
  cbn [is_kw kw_eqb tok_eqb]. split; [|split; [|reflexivity]].
  - destruct (String.eqb_spec k "AS") as [->|]; [discriminate R|reflexivity].
  - destruct (String.eqb_spec k "SELECT") as [->|]; [discriminate R|reflexivity].
Qed.
Lemma pa_alias ts a b y rest : alias_is o ts a b -> f_alias (fst y) = true -> parses parse_alias (ts ++ y :: rest) (a, b) (y :: rest).
Proof.
  intros H F. apply andb_prop in F as [F F3]. apply andb_prop in F as [F1 F2]. apply negb_true_iff in F1, F2, F3.
  destruct H as [|t v s N U|t1 s1 t2 v s2 K N]; cbn [app].
  - eapply pa_bind; [now apply pa_skip_keyword_no|]. eapply pa_bind; [apply pa_token|]. cbn [is_some orb].
    rewrite F3. apply pa_ret.
  - eapply pa_bind; [apply pa_skip_keyword_no; apply (name_not_as t v N)|]. eapply pa_bind; [apply pa_token|]. cbn [is_some orb fst]. rewrite U.
    eapply pa_bind; [eapply pa_name; exact N|apply pa_ret].
  - eapply pa_bind; [now apply pa_skip_keyword|]. eapply pa_bind; [apply pa_token|]. cbn [is_some orb fst].
    eapply pa_bind; [eapply pa_name; exact N|apply pa_ret].
Qed.
Lemma alias_head ts a b y rest : alias_is o ts a b -> f_alias (fst y) = true -> exists z zs, ts ++ y :: rest = z :: zs /\ tok_eqb (fst z) TPeriod = false.
Proof.
  intros H F. apply andb_prop in F as [F F3]. apply andb_prop in F as [F1 F2]. apply negb_true_iff in F1.
  destruct H as [|t v s N U|t1 s1 t2 v s2 K N]; cbn [app]; eexists _, _; (split; [reflexivity|]).
  - exact F1.
  - cbn [fst]. destruct t; try reflexivity; discriminate.
  - cbn [fst]. destruct K as (w & -> & _). reflexivity.
Qed.
Lemma c_table_name ts q us a b hs h : qname_is o ts q -> (exists v k, hd_tok ts = TIdent v k) -> alias_is o us a b -> hints_are o hs h ->
  P_table (ts ++ us ++ hs) (TRTable q a b h).
Proof.
  intros Q (w & kw & Hw) A H. pose proof (qname_len _ _ Q) as Q0. split; [rewrite app_length; lia|]. intros n y rest L F. rewrite !app_length in L. rewrite <- !app_assoc.
  destruct (hints_alias hs h y rest H F) as (z' & zs' & Z' & Zh).
  destruct (alias_head us a b z' zs' A Zh) as (z & zs & Z & Zp).
  assert (X : exists t1 v1 s1 d1, ts = (t1, s1) :: d1 /\ name_tok t1 v1) by (inversion Q; eauto 8).
  destruct X as (t1 & v1 & s1 & d1 & E & N1). destruct (name_not_as t1 v1 N1) as (_ & NS & NL).
  rewrite E at 1. cbn [app]. eapply pa_bind; [apply pa_token|]. cbn [fst]. rewrite NS, NL. cbn [orb].
  rewrite E in Hw. cbn [hd_tok fst] in Hw. rewrite Hw. rewrite <- Hw.
  change ((t1, s1) :: d1 ++ us ++ hs ++ y :: rest) with (((t1, s1) :: d1) ++ us ++ hs ++ y :: rest). rewrite <- E, Z', Z.
  eapply pa_bind; [apply (pa_qname ts q (r_n (knot (S n))) z zs Q Zp); rewrite r_n_knot; lia|]. rewrite <- Z.
  eapply pa_bind; [now apply (pa_alias us a b)|]. cbn iota beta. rewrite <- Z'.
  eapply (pa_bind o _ _ _ _ _ h (y :: rest)).
  { apply (pb_hints o hs h (y :: rest)); [exact H|discriminate|now apply (f_tab_no_hint y rest)|]. rewrite r_n_knot. lia. }
  eapply pa_bind; [apply pa_dialect|]. eapply (pa_bind o _ _ _ _ _ tt (y :: rest)); [|apply pa_ret].
  destruct H as [|ts' h' ts'' l D _ _]; [apply pa_ret|]. rewrite D. apply pa_ret.
Qed.
Lemma alias_union ts a i y rest : alias_is o ts a (Some i) ->
  exists z zs, ts ++ y :: rest = z :: zs /\ is_kw (fst z) "UNION" = false.
Proof.
  intros H. inversion H as [|t v s N U'|t1 s1 t2 v s2 K N]; subst; cbn [app]; eexists _, _; (split; [reflexivity|]).
  - cbn [fst]. destruct t; try reflexivity. destruct k as [| |k]; try reflexivity. cbn [is_kw kw_eqb]. destruct (String.eqb_spec k "UNION") as [->|]; [discriminate U'|reflexivity].
  - cbn [fst]. now apply (kw_is_not o "AS").
Qed.
Lemma c_table_query ts q us a i : P_bottom Closed ts q -> alias_is o us a (Some i) -> P_table (ts ++ us) (TRQuery q a (Some i)).
Proof.
  intros (B1 & _ & B2 & B3) A. split; [rewrite app_length; lia|]. intros n y rest L F. rewrite app_length in L. rewrite <- app_assoc.
  destruct (alias_union us a i y rest A) as (z & zs & Z & Zu). specialize (B2 eq_refl). destruct (cons_len ts B1) as (x & xs & Ex & Hx). rewrite Hx in B2.
  rewrite Ex at 1. cbn [app]. eapply pa_bind; [apply pa_token|]. rewrite B2. cbn [is_kw tok_eqb orb].
  change (x :: xs ++ us ++ y :: rest) with ((x :: xs) ++ us ++ y :: rest). rewrite <- Ex, Z.
  eapply (pa_bind o _ _ _ _ _ q (z :: zs)).
  { change (r_compound (knot (S n))) with (parse_compound_query (knot n)).
    eapply pa_bind; [apply (B3 n z zs); [lia|reflexivity]|]. eapply pa_bind; [apply pa_token|]. rewrite Zu. apply pa_ret. }
  rewrite <- Z. eapply pa_bind; [apply (pa_alias us a (Some i)); [exact A|now apply (f_tab_alias y rest)]|]. apply pa_ret.
Qed.

(** Joins. *)
Ltac kws := repeat match goal with K : View.kw_tok o ?k ?t |- context [is_kw ?t ?w] =>
  first [rewrite (kw_is o _ _ K)|rewrite (kw_is_not o k w t K eq_refl)] end.
Lemma pa_join r js j y rest : join_is o r js j -> parses parse_join_type (js ++ y :: rest) (Some j) (y :: rest).
Proof.
  intros H. destruct H; cbn [app]; (eapply pa_bind; [apply pa_token|]); cbn [fst]; kws.
  - eapply pa_bind; [now apply pa_consume_keyword|]. eapply pa_bind; [now apply pa_consume_keyword|]. apply pa_ret.
  - eapply pa_bind; [now apply pa_consume_keyword|]. eapply pa_bind; [now apply pa_consume_keyword|]. apply pa_ret.
  - eapply pa_bind; [now apply pa_consume_keyword|]. apply pa_ret.
  - eapply pa_bind; [now apply pa_consume_keyword|]. apply pa_ret.
  - eapply pa_bind; [|apply pa_ret]. eapply pa_bind; [now apply pa_consume_keyword|].
    eapply pa_bind; [apply pa_skip_keyword_no; cbn [fst]; now kws|]. cbn iota. eapply pa_bind; [now apply pa_consume_keyword|]. apply pa_ret.
  - eapply pa_bind; [|apply pa_ret]. eapply pa_bind; [now apply pa_consume_keyword|].
    eapply pa_bind; [now apply pa_skip_keyword|]. cbn iota. eapply pa_bind; [now apply pa_consume_keyword|]. apply pa_ret.
  - eapply pa_bind; [|apply pa_ret]. eapply pa_bind; [now apply pa_consume_keyword|].
    eapply pa_bind; [apply pa_skip_keyword_no; cbn [fst]; now kws|]. cbn iota. eapply pa_bind; [now apply pa_consume_keyword|]. apply pa_ret.
  - eapply pa_bind; [|apply pa_ret]. eapply pa_bind; [now apply pa_consume_keyword|].
    eapply pa_bind; [now apply pa_skip_keyword|]. cbn iota. eapply pa_bind; [now apply pa_consume_keyword|]. apply pa_ret.
  - eapply pa_bind; [now apply pa_consume_keyword|]. eapply pa_bind; [apply pa_token|]. cbn [fst]. kws.
    eapply pa_bind; [now apply pa_consume_keyword|]. apply pa_ret.
  - eapply pa_bind; [now apply pa_consume_keyword|]. eapply pa_bind; [apply pa_token|]. cbn [fst]. kws.
    eapply pa_bind; [apply pb_kws2; [eassumption|eassumption|discriminate]|apply pa_ret].
  - eapply pa_bind; [now apply pa_consume_keyword|]. eapply pa_bind; [apply pa_token|]. rewrite <- app_assoc. cbn [app].
    assert (OJ : parses (parse_outer_join w) ((b, sb) :: os ++ (c, sc) :: y :: rest) (join (match x with Some s => join sb s | None => sb end) sc) (y :: rest)).
    { eapply pa_bind; [apply pb_kw; [eassumption|apply ne_app; discriminate]|]. 
      destruct H2; cbn [app]; [eapply pa_bind; [apply pa_skip_keyword_no; cbn [fst]; now kws|]|eapply pa_bind; [apply pb_skip; [eassumption|discriminate]|]];
      cbn iota; (eapply pa_bind; [now apply pa_consume_keyword|]; apply pa_ret). }
    cbn [fst]. cbn [In] in H. destruct H as [E|[E|[]]]; injection E as <- <-; kws; (eapply pa_bind; [exact OJ|apply pa_ret]).
Qed.
Lemma f_join_cases b y rest : f_join b y rest = true ->
  f_tab y rest = true /\ is_kw (fst y) "ON" = false /\ is_kw (fst y) "USING" = false /\
  match b with EndTable => True | EndOn => stops_at y rest = true | EndUsing => tok_eqb (fst y) TComma = false end.
Proof.
  intros F. apply andb_prop in F as [F F4]. apply andb_prop in F as [F F3]. apply andb_prop in F as [F1 F2]. apply negb_true_iff in F2, F3.
  split; [exact F1|]. split; [exact F2|]. split; [exact F3|]. destruct b; [exact I|exact F4|now apply negb_true_iff in F4].
Qed.
Lemma c_on b ts c n y rest : P_on b ts c -> length ts < n -> f_join b y rest = true ->
  parses (parse_join_spec (knot n)) (ts ++ y :: rest) c (y :: rest).
Proof.
  intros H L F. destruct (f_join_cases b y rest F) as (F1 & F2 & F3 & F4). destruct c as [[e s|l s]|]; cbn [GrammarProof.P_on] in H.
  - destruct H as (-> & t & us & -> & K & H). cbn [length app negb orb] in *. destruct n as [|n]; [lia|].
    eapply pa_bind; [apply pa_token|]. cbn [fst]. rewrite (kw_is o _ _ K). destruct (cons_app us y rest) as (z & zs & Z). rewrite Z.
    eapply pa_bind; [now apply pa_consume_keyword|]. rewrite <- Z. eapply pa_bind; [apply (pa_r_expr o false us e n y rest H); [lia|exact F4]|apply pa_ret].
  - destruct H as (-> & t & us & -> & K & H). cbn [length app] in *.
    eapply pa_bind; [apply pa_token|]. cbn [fst]. kws. eapply pa_bind; [apply pb_kw; [exact K|apply ne_app; discriminate]|].
    eapply pa_bind; [apply pb_idents; [exact H|discriminate|exact F4|rewrite r_n_knot; lia]|apply pa_ret].
  - destruct H as [-> ->]. cbn [app]. eapply pa_bind; [apply pa_token|]. rewrite F2, F3. apply pa_ret.
Qed.
Lemma c_tables_one ts t : P_table ts t -> P_tables EndTable ts t.
Proof.
  intros (H1 & H2). split; [exact H1|]. exists 0. split; [exact H1|]. intros n m y rest t' Z L F H. apply f_join_cases in F as (F & _).
  cbn [plus]. eapply pa_bind; [apply H2; [exact L|exact F]|exact H].
Qed.
(** The first word of a join may follow a table and, if it is not RIGHT, an expression. *)
Lemma join_follow r js j b us : join_is o r js j -> (b = EndOn -> r = false) ->
  exists z zs, js = z :: zs /\ f_join b z (zs ++ us) = true.
Proof.
  intros H B. destruct H; (eexists _, _; split; [reflexivity|]); cbn [app];
  repeat match goal with K : View.kw_tok o _ _ |- _ => destruct K as (? & -> & _) end; unfold f_join, f_tab, stops_at; cbn [fst];
  destruct b; try reflexivity; try discriminate (B eq_refl).
Qed.
Lemma on_head b us c y rest : P_on b us c -> f_join b y rest = true -> exists z zs, us ++ y :: rest = z :: zs /\ f_tab z zs = true.
Proof.
  intros H F. apply f_join_cases in F as (F & _). destruct c as [[e s|l s]|]; cbn [GrammarProof.P_on] in H.
  - destruct H as (_ & t & us' & -> & K & _). eexists _, _. split; [reflexivity|]. destruct K as (v & -> & _). reflexivity.
  - destruct H as (_ & t & us' & -> & K & _). eexists _, _. split; [reflexivity|]. destruct K as (v & -> & _). reflexivity.
  - destruct H as [_ ->]. eexists _, _. split; [reflexivity|]. exact F.
Qed.
Lemma c_tables_join b ts l r js j ts' t b' us c : P_tables b ts l -> join_is o r js j -> (b = EndOn -> r = false) -> P_table ts' t -> P_on b' us c ->
  P_tables b' (ts ++ js ++ ts' ++ us) (TRJoin j l t c).
Proof.
  intros (H1 & k & Hk & H2) J B (T1 & T2) O. unfold GrammarProof.P_tables. rewrite !app_length. split; [lia|]. exists (S k). split; [lia|].
  intros n m y rest t' Z L F H. rewrite <- !app_assoc.
  destruct (join_follow r js j b (ts' ++ us ++ y :: rest) J B) as (z & zs & -> & Fz). cbn [app].
  replace (S k + m)%nat with (k + S m)%nat by lia. apply H2; [lia|exact Fz|]. cbn [loop].
  destruct (on_head b' us c y rest O F) as (x & xs & X & Fx). destruct (cons_len ts' T1) as (w & ws & Ew & _).
  eapply (pa_bind o _ _ _ _ _ (inl (TRJoin j l t c)) (y :: rest)); [|exact H].
  eapply pa_bind.
  { rewrite Ew. cbn [app]. change (z :: zs ++ w :: ws ++ us ++ y :: rest) with ((z :: zs) ++ w :: (ws ++ us ++ y :: rest)). apply (pa_join r _ j _ _ J). }
  cbn iota. change (w :: ws ++ us ++ y :: rest) with ((w :: ws) ++ us ++ y :: rest). rewrite <- Ew, X.
  eapply pa_bind; [apply T2; [cbn [length] in L; lia|exact Fx]|]. rewrite <- X.
  eapply pa_bind; [apply (c_on b' us c (S n) y rest O); [lia|exact F]|]. apply pa_ret.
Qed.
(** FROM. *)
Lemma f_from_cases y rest : f_from y rest = true ->
  f_tab y rest = true /\ is_kw (fst y) "ON" = false /\ is_kw (fst y) "USING" = false /\ stops (fst y) = true /\ existsb (is_kw (fst y)) join_words = false.
Proof.
  unfold f_from. intros H. apply orb_prop in H as [H|H].
  - apply from_cases in H as [[H|[H|[H|H]]]|(v & k & H & I)]; [| | | | |lia]; unfold f_tab; rewrite H; try (repeat split; reflexivity).
    cbn in I. repeat (destruct I as [<-|I]; [repeat split; reflexivity|]). destruct I.
  - destruct y as [[] ?]; try discriminate. repeat split; reflexivity.
Qed.
Lemma c_tables b ts t n y rest : P_tables b ts t -> length ts < n -> f_from y rest = true -> (b = EndUsing -> tok_eqb (fst y) TComma = false) ->
  parses (parse_table_reference (knot (S n))) (ts ++ y :: rest) t (y :: rest).
Proof.
  intros (H1 & k & Hk & H2) L F Fc. destruct (f_from_cases y rest F) as (F1 & F2 & F2' & F3 & F4).
  unfold parse_table_reference. rewrite r_n_knot. replace (S (S n)) with (k + S (S n - k))%nat by lia. apply H2; [exact L| |].
  - unfold f_join. rewrite F1, F2, F2'. unfold stops_at. rewrite F3. destruct b; [reflexivity|reflexivity|]. now rewrite Fc.
  - cbn [loop]. eapply (pa_bind o _ _ _ _ _ (inr t) (y :: rest)); [|apply pa_ret]. eapply (pa_bind o _ _ _ _ _ None (y :: rest)); [|apply pa_ret].
    eapply pa_bind; [apply pa_token|]. cbn [existsb join_words] in F4. apply orb_false_elim in F4 as [-> F4]. apply orb_false_elim in F4 as [-> F4].
    apply orb_false_elim in F4 as [-> F4]. apply orb_false_elim in F4 as [A F4]. apply orb_false_elim in F4 as [B F4]. apply orb_false_elim in F4 as [C F4].
    apply orb_false_elim in F4 as [-> _]. rewrite A, B, C. apply pa_ret.
Qed.
Lemma c_from_one b ts t : P_tables b ts t -> P_from ts [t].
Proof.
  intros H. split; [apply H|]. split; [destruct H as [H _]; cbn; lia|]. intros n m acc y rest L1 L2 F C. apply sep_one; [now apply (c_tables b)|exact C|exact L2].
Qed.
Lemma c_from_more b ts t s ts' l : P_tables b ts t -> b <> EndUsing -> P_from ts' l -> P_from (ts ++ (TComma, s) :: ts') (t :: l).
Proof.
  intros H B H'. apply P_sep_more; [|exact H'|].
  - split; [apply H|]. intros n y rest L F. apply (c_tables b); auto. intros. congruence.
  - intros s' rest. unfold f_from. apply orb_true_r.
Qed.

(** ** Clauses *)
Lemma c_exprs_elem ts e : P_expr false ts e -> P_one (fun n => r_expr (knot n) false) f_expr ts e.
Proof. intros H. split; [apply H|]. intros n y rest L F. destruct n as [|n]; [lia|]. apply (pa_r_expr o false ts e n y rest H); [lia|exact F]. Qed.
Lemma c_exprs_one ts e : P_expr false ts e -> P_exprs ts [e].
Proof. intros H. apply P_sep_one. now apply c_exprs_elem. Qed.
Lemma c_exprs_more ts e s ts' l : P_expr false ts e -> P_exprs ts' l -> P_exprs (ts ++ (TComma, s) :: ts') (e :: l).
Proof. intros H H'. apply P_sep_more; [now apply c_exprs_elem|exact H'|reflexivity]. Qed.
Lemma c_sort_elem ts e us d : P_expr false ts e -> direction_is us d -> P_one (fun n => sort_elem (knot n)) f_sort (ts ++ us) (e, d).
Proof.
  intros H D. split; [rewrite app_length; destruct H as (_ & ? & _); lia|]. intros n y rest L F. rewrite app_length in L. destruct n as [|n]; [lia|].
  apply andb_prop in F as [F F3]. apply andb_prop in F as [F1 F2]. apply negb_true_iff in F2, F3. rewrite <- app_assoc.
  destruct D as [|v s|v s]; cbn [app].
  - eapply pa_bind; [apply (pa_r_expr o false ts e n y rest H); [lia|exact F1]|]. eapply pa_bind; [apply pa_token|]. rewrite F2, F3. eapply pa_bind; [apply pa_ret|apply pa_ret].
  - eapply pa_bind; [apply (pa_r_expr o false ts e n (TIdent v (KW "ASC"), s) (y :: rest) H); [lia|reflexivity]|].
    eapply pa_bind; [apply pa_token|]. cbn [fst is_kw kw_eqb String.eqb Ascii.eqb Bool.eqb]. eapply pa_bind; [eapply pa_bind; [apply pa_consume; np|apply pa_ret]|apply pa_ret].
  - eapply pa_bind; [apply (pa_r_expr o false ts e n (TIdent v (KW "DESC"), s) (y :: rest) H); [lia|reflexivity]|].
    eapply pa_bind; [apply pa_token|]. cbn [fst is_kw kw_eqb String.eqb Ascii.eqb Bool.eqb]. eapply pa_bind; [eapply pa_bind; [apply pa_consume; np|apply pa_ret]|apply pa_ret].
Qed.
Lemma c_sorted_one ts e us d : P_expr false ts e -> direction_is us d -> P_sorted (ts ++ us) [(e, d)].
Proof. intros H D. apply P_sep_one. now apply c_sort_elem. Qed.
Lemma c_sorted_more ts e us d s ts' l : P_expr false ts e -> direction_is us d -> P_sorted ts' l -> P_sorted (ts ++ us ++ (TComma, s) :: ts') ((e, d) :: l).
Proof. intros H D H'. rewrite app_assoc. apply P_sep_more; [now apply c_sort_elem|exact H'|reflexivity]. Qed.
Lemma c_limit_count t s ts c : kw_tok "LIMIT" t -> P_expr true ts c -> P_limit ((t, s) :: ts) (Some (s, None, c)).
Proof.
  intros K H. split; [right; eauto|]. intros n y rest L F. cbn [length app] in *. destruct n as [|n]; [lia|].
  assert (F1 : from 1 y = true) by (apply (from_le 1 8); auto; lia).
  destruct (cons_app ts y rest) as (z & zs & Z). rewrite Z. eapply pa_bind; [now apply pa_skip_keyword|]. cbn iota. rewrite <- Z.
  eapply pa_bind; [apply (pa_r_expr o true ts c n y rest H); [lia|apply stops_stops_at; now apply from_stops]|].
  eapply pa_bind; [apply pa_token|]. rewrite (from_not_comma y F1), (from_not_kw 8 y "OFFSET" F) by (reflexivity || lia). apply pa_ret.
Qed.
Lemma c_limit_comma t s ts a s' ts' c : kw_tok "LIMIT" t -> P_expr true ts a -> P_expr true ts' c ->
  P_limit ((t, s) :: ts ++ (TComma, s') :: ts') (Some (s, Some a, c)).
Proof.
  intros K H H'. split; [right; eauto|]. intros n y rest L F. cbn [length app] in *. rewrite app_length in L. cbn [length] in L. destruct n as [|n]; [lia|].
  assert (F1 : from 1 y = true) by (apply (from_le 1 8); auto; lia). rewrite <- app_assoc. cbn [app].
  destruct (cons_app ts (TComma, s') (ts' ++ y :: rest)) as (z & zs & Z). rewrite Z. eapply pa_bind; [now apply pa_skip_keyword|]. cbn iota. rewrite <- Z.
  eapply pa_bind; [apply (pa_r_expr o true ts a n (TComma, s') (ts' ++ y :: rest) H); [lia|reflexivity]|].
  eapply pa_bind; [apply pa_token|]. cbn [fst tok_eqb]. destruct (cons_app ts' y rest) as (w & ws & W). rewrite W. eapply pa_bind; [apply pa_consume; np|]. rewrite <- W.
  eapply pa_bind; [apply (pa_r_expr o true ts' c n y rest H'); [lia|apply stops_stops_at; now apply from_stops]|]. apply pa_ret.
Qed.
Lemma c_limit_offset t s ts c v s' ts' a : kw_tok "LIMIT" t -> P_expr true ts c -> P_expr true ts' a ->
  P_limit ((t, s) :: ts ++ (TIdent v (KW "OFFSET"), s') :: ts') (Some (s, Some a, c)).
Proof.
  intros K H H'. split; [right; eauto|]. intros n y rest L F. cbn [length app] in *. rewrite app_length in L. cbn [length] in L. destruct n as [|n]; [lia|].
  assert (F1 : from 1 y = true) by (apply (from_le 1 8); auto; lia). rewrite <- app_assoc. cbn [app].
  destruct (cons_app ts (TIdent v (KW "OFFSET"), s') (ts' ++ y :: rest)) as (z & zs & Z). rewrite Z. eapply pa_bind; [now apply pa_skip_keyword|]. cbn iota. rewrite <- Z.
  eapply pa_bind; [apply (pa_r_expr o true ts c n (TIdent v (KW "OFFSET"), s') (ts' ++ y :: rest) H); [lia|reflexivity]|].
  eapply pa_bind; [apply pa_token|]. cbn [fst tok_eqb is_kw kw_eqb String.eqb Ascii.eqb Bool.eqb]. destruct (cons_app ts' y rest) as (w & ws & W). rewrite W. eapply pa_bind; [apply pa_consume; np|]. rewrite <- W.
  eapply pa_bind; [apply (pa_r_expr o true ts' a n y rest H'); [lia|apply stops_stops_at; now apply from_stops]|]. apply pa_ret.
Qed.
Lemma c_limit_none : P_limit [] None.
Proof.
  split; [now left|]. intros n y rest L F. eapply pa_bind; [apply pa_skip_keyword_no; apply (from_not_kw 8 y); [exact F|lia|reflexivity]|]. apply pa_ret.
Qed.
(** An optional clause: what it reads and which tokens may come next. *)
Definition next_ok (i : nat) (ts : tks) : Prop := exists y rest, ts = y :: rest /\ from i y = true.
Lemma next_le i j ts : next_ok j ts -> i <= j -> next_ok i ts.
Proof. intros (y & rest & -> & F) L. exists y, rest. split; [reflexivity|]. now apply (from_le i j). Qed.
Lemma kw_from i k t s : kw_tok k t -> Nat.leb i (rank (TIdent [] (KW k))) = true -> from i (t, s) = true.
Proof. intros (v & -> & _) H. exact H. Qed.
Lemma pa_cond k i ts c us n : P_cond k ts c -> length ts < n -> next_ok (S i) us -> Nat.eqb (rank (TIdent [] (KW k))) i = true ->
  existsb (String.eqb k) (ranked_words (S i)) = false ->
  parses (opt_where (knot n) k) (ts ++ us) c us /\ (0 < i -> next_ok i (ts ++ us)).
Proof.
  intros H L (y & rest & -> & F) R W. apply Nat.eqb_eq in R. assert (F1 : from 1 y = true) by (apply (from_le 1 (S i)); auto; lia).
  destruct c as [[e s]|]; cbn [GrammarProof.P_cond] in H.
  - destruct H as (t & vs & -> & K & H). cbn [length app] in *. destruct n as [|n]; [lia|]. split.
    + destruct (cons_app vs y rest) as (z & zs & Z). rewrite Z. eapply pa_bind; [now apply pa_skip_keyword|]. cbn iota. rewrite <- Z.
      eapply pa_bind; [apply (pa_r_expr o false vs e n y rest H); [lia|apply stops_stops_at; now apply from_stops]|apply pa_ret].
    + intros _. exists (t, s), (vs ++ y :: rest). split; [reflexivity|]. apply (kw_from i k); [exact K|]. apply Nat.leb_le. lia.
  - subst ts. cbn [app]. split.
    + eapply pa_bind; [apply pa_skip_keyword_no; apply (from_not_kw (S i) y k F); [lia|exact W]|]. apply pa_ret.
    + intros _. exists y, rest. split; [reflexivity|]. apply (from_le i (S i)); auto.
Qed.
Lemma pa_group ts g us n : P_group ts g -> length ts < n -> next_ok 4 us ->
  parses (g <- skip_keyword "GROUP" ;;
          match g with
                  | Some group_span =>
                      b <- consume_keyword "BY" ;;
                      l <- sep_list (r_n (knot n)) (r_expr (knot n) false) ;;
                      Ret (Some (join b group_span, l))
                  | None => Ret None
                  end) (ts ++ us) g us /\ next_ok 3 (ts ++ us).
Proof.
  intros H L (y & rest & -> & F). assert (F1 : from 1 y = true) by (apply (from_le 1 4); auto; lia). destruct g as [[sp l]|]; cbn [GrammarProof.P_group] in H.
  - destruct H as (t & s & t' & s' & vs & -> & -> & K & K' & H). cbn [length app] in *. split.
    + eapply pa_bind; [now apply pa_skip_keyword|]. cbn iota. destruct (cons_app vs y rest) as (z & zs & Z). rewrite Z.
      eapply pa_bind; [now apply pa_consume_keyword|]. rewrite <- Z.
      eapply pa_bind; [apply (pa_sep o _ (fun n => r_expr (knot n) false) f_expr vs l n y rest); [exact H|lia|rewrite r_n_knot; lia| |now apply from_not_comma]|apply pa_ret].
      apply stops_stops_at. now apply from_stops.
    + eexists _, _. split; [reflexivity|]. now apply (kw_from 3 "GROUP").
  - subst ts. cbn [app]. split.
    + eapply pa_bind; [apply pa_skip_keyword_no; apply (from_not_kw 4 y); [exact F|lia|reflexivity]|]. apply pa_ret.
    + exists y, rest. split; [reflexivity|]. apply (from_le 3 4); auto.
Qed.
Lemma pa_order ts g us n : P_order ts g -> length ts < n -> next_ok 7 us ->
  parses (parse_order_by (knot n)) (ts ++ us) g us /\ next_ok 6 (ts ++ us).
Proof.
  intros H L (y & rest & -> & F). assert (F1 : from 1 y = true) by (apply (from_le 1 7); auto; lia). destruct g as [[sp l]|]; cbn [GrammarProof.P_order] in H.
  - destruct H as (t & s & t' & s' & vs & -> & -> & K & K' & H). cbn [length app] in *. split.
    + eapply pa_bind; [now apply pa_skip_keyword|]. cbn iota. destruct (cons_app vs y rest) as (z & zs & Z). rewrite Z.
      eapply pa_bind; [now apply pa_consume_keyword|]. rewrite <- Z.
      eapply pa_bind; [apply (pa_sep o _ (fun n => sort_elem (knot n)) f_sort vs l n y rest); [exact H|lia|rewrite r_n_knot; lia| |now apply from_not_comma]|apply pa_ret].
      unfold f_sort. rewrite (stops_stops_at y rest (from_stops y F1)), (from_not_kw 7 y "ASC" F), (from_not_kw 7 y "DESC" F) by (reflexivity || lia). reflexivity.
    + eexists _, _. split; [reflexivity|]. now apply (kw_from 6 "ORDER").
  - subst ts. cbn [app]. split.
    + eapply pa_bind; [apply pa_skip_keyword_no; apply (from_not_kw 7 y); [exact F|lia|reflexivity]|]. apply pa_ret.
    + exists y, rest. split; [reflexivity|]. apply (from_le 6 7); auto.
Qed.
Lemma pa_limit ts l us n : P_limit ts l -> length ts < n -> next_ok 8 us ->
  parses (parse_limit (knot n)) (ts ++ us) l us /\ next_ok 7 (ts ++ us).
Proof.
  intros (H1 & H2) L (y & rest & -> & F). split; [now apply H2|]. destruct H1 as [->|(t & s & vs & -> & K)]; cbn [app].
  - exists y, rest. split; [reflexivity|]. apply (from_le 7 8); auto.
  - eexists _, _. split; [reflexivity|]. now apply (kw_from 7 "LIMIT").
Qed.

(** ** SELECT *)
Lemma opens_flags t : opens t = true -> kw_assoc select_flags t = None.
Proof.
  intros H. cbn [kw_assoc select_flags]. rewrite !(opens_kw t _ H) by (cbn; tauto). reflexivity.
Qed.
Lemma pa_flags fs fl : flags_are o fs fl -> forall m acc y rest, length fs < m -> opens (fst y) = true ->
  parses (loop m (fun l : list tagged =>
    t <- token ;;
    match kw_assoc select_flags t with
    | Some (k, c) => s <- consume_keyword k ;; Ret (inl (l ++ [mkTag c s]))
    | None => Ret (inr l)
    end) acc) (fs ++ y :: rest) (acc ++ fl) (y :: rest).
Proof.
  induction 1 as [|k c t s ts l I K H IH]; intros m acc y rest L F; cbn [length] in L; (destruct m as [|m]; [lia|]); cbn [loop app].
  - rewrite app_nil_r. eapply pa_bind; [eapply pa_bind; [apply pa_token|]; rewrite (opens_flags _ F); apply pa_ret|apply pa_ret].
  - destruct (cons_app ts y rest) as (z & zs & Z). rewrite Z. pose proof K as (v & -> & _).
    eapply pa_bind; [eapply pa_bind; [apply pa_token|]; cbn [fst]; rewrite (kw_assoc_in select_flags v k c) by (auto; reflexivity);
      eapply pa_bind; [now apply pa_consume_keyword|apply pa_ret]|]. cbn iota. rewrite <- Z.
    replace (acc ++ mkTag c s :: l) with ((acc ++ [mkTag c s]) ++ l) by now rewrite <- app_assoc. apply IH; [lia|exact F].
Qed.
Lemma pa_select_head t s fs fl ts l n us : kw_tok "SELECT" t -> flags_are o fs fl -> P_selection ts l -> length fs + length ts < n ->
  (exists y rest, us = y :: rest /\ f_sel y rest = true /\ tok_eqb (fst y) TComma = false) ->
  forall A (k : span -> list tagged -> list (select_expr expr) -> prog A) a vs,
  parses (k s fl l) us a vs ->
  parses (select_span <- consume_keyword "SELECT" ;; flags <- parse_flags (r_n (knot n)) select_flags ;;
          exprs <- sep_list (r_n (knot n)) (parse_select_expr (knot n)) ;; k select_span flags exprs) ((t, s) :: fs ++ ts ++ us) a vs.
Proof.
  intros K Fl (O & H) L (y & rest & -> & F1 & F2) A k a vs X. destruct (cons_len ts (proj1 H)) as (z & zs & Ez & Hz). rewrite Hz in O.
  destruct (cons_app fs z (zs ++ y :: rest)) as (w & ws & W).
  assert (W' : fs ++ ts ++ y :: rest = w :: ws) by (rewrite Ez; exact W). rewrite W'.
  eapply pa_bind; [now apply pa_consume_keyword|]. rewrite <- W'.
  eapply (pa_bind o _ _ _ _ _ fl (ts ++ y :: rest)).
  { rewrite Ez. cbn [app]. apply (pa_flags fs fl Fl (r_n (knot n)) [] z (zs ++ y :: rest)); [rewrite r_n_knot; lia|exact O]. }
  eapply pa_bind; [apply (pa_sep o _ (fun n => parse_select_expr (knot n)) f_sel ts l n y rest (r_n (knot n)) H); [lia|rewrite r_n_knot; lia|exact F1|exact F2]|]. exact X.
Qed.
Lemma c_select_no_from t s fs fl ts l : kw_tok "SELECT" t -> flags_are o fs fl -> P_selection ts l ->
  P_select NoFrom ((t, s) :: fs ++ ts) (mkSelect s fl l None None None None None None None None None).
Proof.
  intros K Fl H. split; [cbn; lia|]. split; [exact (kw_is o _ _ K)|]. intros n y rest L F. cbn [length] in L. rewrite app_length in L.
  apply andb_prop in F as [F F3]. apply andb_prop in F as [F1 F2]. apply negb_true_iff in F2, F3. cbn [app]. rewrite <- app_assoc.
  eapply pa_select_head; eauto 8; [lia|]. eapply pa_bind; [now apply pa_skip_keyword_no|]. apply pa_ret.
Qed.
Lemma from_no_lock y : from 9 y = true -> no_lock (fst y) = true.
Proof.
  intros H. unfold no_lock.
  rewrite (from_not_kw 9 y "FOR" H), (from_not_kw 9 y "OF" H), (from_not_kw 9 y "NOWAIT" H), (from_not_kw 9 y "SKIP" H), (from_not_comma y) by (reflexivity || lia || now apply (from_le 1 9); auto; lia).
  reflexivity.
Qed.
Lemma pa_window ts x us : opt_word o "WINDOW" ts x -> next_ok 6 us -> parses (skip_keyword "WINDOW") (ts ++ us) x us /\ next_ok 5 (ts ++ us).
Proof.
  intros H (y & rest & -> & F). split.
  - apply pb_opt; [exact H|discriminate|]. apply (from_not_kw 6 y); [exact F|lia|reflexivity].
  - destruct H as [|t s K]; cbn [app]; eexists _, _; (split; [reflexivity|]); [now apply (from_le 5 6); auto|now apply (kw_from 5 "WINDOW")].
Qed.
Lemma pa_locking ts x us r : locking_is o ts x -> next_ok 9 us -> length ts < r_n r -> parses (parse_locking r) (ts ++ us) x us /\ next_ok 8 (ts ++ us).
Proof.
  intros H (y & rest & -> & F) L. split.
  - apply pb_locking; [exact H|discriminate|now apply from_no_lock|exact L].
  - destruct H as [|t s ss g os f ws w K _ _ _]; cbn [app]; eexists _, _; (split; [reflexivity|]); [now apply (from_le 8 9); auto|now apply (kw_from 8 "FOR")].
Qed.
Lemma c_select_from t s fs fl ts l t' s' fr trs wh w gr g hv h wi win ob or_ ls lm ks lk :
    kw_tok "SELECT" t -> flags_are o fs fl -> P_selection ts l -> kw_tok "FROM" t' -> P_from fr trs ->
    P_cond "WHERE" wh w -> P_group gr g -> P_cond "HAVING" hv h -> opt_word o "WINDOW" wi win -> P_order ob or_ -> P_limit ls lm -> locking_is o ks lk ->
    P_select WithFrom ((t, s) :: fs ++ ts ++ (t', s') :: fr ++ wh ++ gr ++ hv ++ wi ++ ob ++ ls ++ ks)
      (mkSelect s fl l (Some s') (Some trs) w g h win or_ lm lk).
Proof.
  intros K Fl H K' HF HW HG HH HWi HO HL HK. split; [cbn; lia|]. split; [exact (kw_is o _ _ K)|]. intros n y rest L F. cbn [length] in L. rewrite !app_length in L.
  cbn [length] in L. rewrite !app_length in L. cbn [f_end] in F. destruct n as [|n]; [lia|].
  assert (N9 : next_ok 9 (y :: rest)) by (exists y, rest; auto).
  destruct (pa_locking ks lk (y :: rest) (knot (S n)) HK N9) as [PK N8]; [rewrite r_n_knot; lia|].
  destruct (pa_limit ls lm (ks ++ y :: rest) (S n) HL) as [PL N7]; [lia|exact N8|].
  destruct (pa_order ob or_ (ls ++ ks ++ y :: rest) (S n) HO) as [PO N6]; [lia|exact N7|].
  destruct (pa_window wi win (ob ++ ls ++ ks ++ y :: rest) HWi N6) as [PWi N5].
  destruct (pa_cond "HAVING" 4 hv h (wi ++ ob ++ ls ++ ks ++ y :: rest) (S n) HH) as [PH N4]; [lia|exact N5|reflexivity|reflexivity|].
  specialize (N4 ltac:(lia)).
  destruct (pa_group gr g (hv ++ wi ++ ob ++ ls ++ ks ++ y :: rest) (S n) HG) as [PG N3]; [lia|exact N4|].
  destruct (pa_cond "WHERE" 2 wh w (gr ++ hv ++ wi ++ ob ++ ls ++ ks ++ y :: rest) (S n) HW) as [PW N2]; [lia|exact N3|reflexivity|reflexivity|].
  specialize (N2 ltac:(lia)). cbn [app]. rewrite <- !app_assoc. cbn [app]. rewrite <- !app_assoc.
  assert (FS : stops_at (t', s') (fr ++ wh ++ gr ++ hv ++ wi ++ ob ++ ls ++ ks ++ y :: rest) = true) by (apply stops_stops_at; now apply (kw_stops o "FROM")).
  eapply pa_select_head; [exact K|exact Fl|exact H|lia| |].
  { eexists _, _. split; [reflexivity|]. unfold f_sel. rewrite FS. cbn [fst]. rewrite (kw_is_not o "FROM" "AS" t' K' eq_refl). split; [reflexivity|].
    destruct K' as (v & -> & _). reflexivity. }
  destruct N2 as (z & zs & Ez & Fz). destruct (cons_app fr z zs) as (x & xs & X). rewrite Ez, X.
  eapply pa_bind; [now apply pa_skip_keyword|]. cbn iota. rewrite <- X.
  eapply pa_bind; [apply (pa_sep o _ (fun n => parse_table_reference (knot (S n))) f_from fr trs n z zs (r_n (knot (S n))) HF); [lia|rewrite r_n_knot; lia| |]|].
  { unfold f_from. now rewrite Fz. }
  { apply from_not_comma. now apply (from_le 1 2); auto. }
  rewrite <- Ez. eapply pa_bind; [exact PW|]. apply pa_assoc. eapply pa_bind; [exact PG|]. eapply pa_bind; [exact PH|].
  eapply pa_bind; [exact PWi|]. eapply pa_bind; [exact PO|]. eapply pa_bind; [exact PL|]. eapply pa_bind; [exact PK|apply pa_ret].
Qed.

(** ** Queries *)
Lemma from_end i b y rest : from i y = true -> 2 <= i -> (b = WithFrom -> 9 <= i) -> f_end b y rest = true.
Proof.
  intros F I W. destruct b; cbn [f_end]; [reflexivity| |apply (from_le 9 i); auto].
  assert (F1 : from 1 y = true) by (apply (from_le 1 i); auto; lia). assert (F2 : from 2 y = true) by (apply (from_le 2 i); auto; lia).
  unfold f_sel. rewrite (stops_stops_at y rest (from_stops y F1)), (from_not_comma y F1), (from_not_kw 2 y "AS" F2), (from_not_kw 2 y "FROM" F2) by (reflexivity || lia).
  reflexivity.
Qed.
Lemma c_bottom_select b ts s : P_select b ts s -> b <> Closed -> P_bottom b ts (SSelect s).
Proof.
  intros (H1 & H2 & H3) B. split; [exact H1|]. split; [now left|]. split; [congruence|]. intros n y rest L F.
  destruct (cons_len ts H1) as (x & xs & E & Hx). rewrite Hx in H2. rewrite E at 1. cbn [app]. eapply pa_bind; [apply pa_token|].
  assert (Nl : tok_eqb (fst x) TLParen = false) by (destruct (fst x); try reflexivity; discriminate). rewrite Nl, H2.
  change (x :: xs ++ y :: rest) with ((x :: xs) ++ y :: rest). rewrite <- E. eapply pa_bind; [now apply H3|apply pa_ret].
Qed.
Lemma c_bottom_paren s1 ts s2 q : P_query ts q -> P_bottom Closed ((TLParen, s1) :: ts ++ [(TRParen, s2)]) q.
Proof.
  intros (H1 & H2 & H3). split; [cbn; lia|]. split; [now right|]. split; [reflexivity|]. intros n y rest L _. cbn [length app] in *. rewrite app_length in L. cbn [length] in L.
  destruct n as [|n]; [lia|]. rewrite <- app_assoc. cbn [app]. destruct (cons_app ts (TRParen, s2) (y :: rest)) as (z & zs & Z). rewrite Z.
  eapply pa_bind; [apply pa_token|]. cbn [fst tok_eqb]. eapply pa_bind; [now apply pa_consume_token|]. rewrite <- Z.
  eapply (pa_bind o _ _ _ _ _ (Some q) ((TRParen, s2) :: y :: rest)).
  { apply (pa_recovered o _ (Some q)); [|reflexivity]. eapply pa_bind; [|apply pa_ret]. apply (H3 n (TRParen, s2) (y :: rest)); [lia|reflexivity]. }
  eapply pa_bind; [now apply pa_consume_token|]. apply pa_ret.
Qed.
Lemma union_type_hd us ty z zs : union_type_is o us ty -> exists w ws, us ++ z :: zs = w :: ws.
Proof. intros. apply cons_app. Qed.
(** One branch. *)
Lemma pa_union_type us ty z zs : union_type_is o us ty -> starts (fst z) ->
  parses (t <- token ;;
    (if is_kw t "ALL" then s <- consume_keyword "ALL" ;; Ret (UTAll s)
           else if is_kw t "DISTINCT" then s <- consume_keyword "DISTINCT" ;; Ret (UTDistinct s)
           else Ret UTDefault)) (us ++ z :: zs) ty (z :: zs).
Proof.
  intros H S. destruct H as [|t s K|t s K]; cbn [app]; (eapply pa_bind; [apply pa_token|]); cbn [fst].
  - assert (X : is_kw (fst z) "ALL" = false /\ is_kw (fst z) "DISTINCT" = false).
    { destruct S as [S| ->]; [|split; reflexivity]. destruct (fst z); try discriminate S. destruct k as [| |k]; try discriminate S. cbn [is_kw kw_eqb] in S. apply String.eqb_eq in S as ->. split; reflexivity. }
    destruct X as [-> ->]. apply pa_ret.
  - kws. eapply pa_bind; [now apply pa_consume_keyword|apply pa_ret].
  - kws. eapply pa_bind; [now apply pa_consume_keyword|apply pa_ret].
Qed.
Lemma pa_union_one b t s us ty ts q n acc y rest : kw_tok "UNION" t -> union_type_is o us ty -> P_bottom b ts q -> length ts < n -> f_end b y rest = true ->
  parses (union_body (knot n) acc) ((t, s) :: us ++ ts ++ y :: rest)
    (if is_kw (fst y) "UNION" then inl (acc ++ [mkUnionWith s ty q]) else inr (acc ++ [mkUnionWith s ty q])) (y :: rest).
Proof.
  intros K U (B1 & B2 & _ & B3) L F. unfold union_body. destruct (cons_len ts B1) as (z & zs & Ez & Hz). rewrite Hz in B2.
  destruct (cons_app us z (zs ++ y :: rest)) as (w & ws & W).
  assert (W' : us ++ ts ++ y :: rest = w :: ws) by (rewrite Ez; exact W). rewrite W'.
  eapply pa_bind; [now apply pa_consume_keyword|]. rewrite <- W'. apply pa_assoc.
  eapply (pa_bind o _ _ _ _ _ ty (ts ++ y :: rest)); [rewrite Ez; cbn [app]; now apply pa_union_type|].
  eapply pa_bind; [now apply B3|]. cbn zeta. eapply pa_bind; [apply pa_token|]. destruct (is_kw (fst y) "UNION"); apply pa_ret.
Qed.
Lemma c_unions_one b t s us ty ts q : kw_tok "UNION" t -> union_type_is o us ty -> P_bottom b ts q ->
  P_unions b ((t, s) :: us ++ ts) [mkUnionWith s ty q].
Proof.
  intros K U B. split; [cbn; lia|]. split; [exact (kw_is o _ _ K)|]. split; [cbn; lia|]. intros n m acc y rest L M F Nu. cbn [length] in *. rewrite app_length in L.
  destruct m as [|m]; [lia|]. cbn [loop app]. rewrite <- app_assoc. eapply pa_bind; [apply (pa_union_one b); eauto; lia|]. rewrite Nu. cbn iota. apply pa_ret.
Qed.
Lemma c_unions_more b t s us ty b' ts q ts' l : kw_tok "UNION" t -> union_type_is o us ty -> P_bottom b' ts q -> P_unions b ts' l ->
  P_unions b ((t, s) :: us ++ ts ++ ts') (mkUnionWith s ty q :: l).
Proof.
  intros K U B (H1 & H2 & H3 & H4). split; [cbn; lia|]. split; [exact (kw_is o _ _ K)|]. split; [cbn; rewrite !app_length; lia|].
  intros n m acc y rest L M F Nu. cbn [length] in *. rewrite !app_length in L. destruct m as [|m]; [lia|]. cbn [loop app]. rewrite <- !app_assoc.
  destruct (cons_len ts' H1) as (z & zs & Ez & Hz). rewrite Hz in H2.
  eapply (pa_bind o _ _ _ _ _ (inl (acc ++ [mkUnionWith s ty q])) (ts' ++ y :: rest)).
  - rewrite Ez. cbn [app]. pose proof (pa_union_one b' t s us ty ts q n acc z (zs ++ y :: rest) K U B ltac:(lia)) as X. rewrite H2 in X. apply X.
    apply (from_end 9); [|lia|lia]. unfold from. destruct (fst z); try discriminate H2. destruct k as [| |k]; try discriminate H2. cbn [is_kw kw_eqb] in H2. apply String.eqb_eq in H2 as ->. reflexivity.
  - cbn iota. replace (acc ++ mkUnionWith s ty q :: l) with ((acc ++ [mkUnionWith s ty q]) ++ l) by now rewrite <- app_assoc. apply H4; auto; lia.
Qed.
Lemma c_query_one b ts q : P_bottom b ts q -> P_query ts q.
Proof.
  intros (H1 & H2 & _ & H3). split; [exact H1|]. split; [exact H2|]. intros n y rest L F.
  eapply pa_bind; [apply H3; [exact L|now apply (from_end 10); auto; lia]|]. eapply pa_bind; [apply pa_token|].
  rewrite (from_not_kw 10 y "UNION" F) by (reflexivity || lia). apply pa_ret.
Qed.
Lemma c_query_union b ts q b' us l ob or_ ls lm : P_bottom b ts q -> P_unions b' us l -> P_order ob or_ -> P_limit ls lm ->
    (b' = WithFrom -> ob = [] /\ ls = []) -> P_query (ts ++ us ++ ob ++ ls) (SUnion (mkUnion q l or_ lm)).
Proof.
  intros (H1 & H2 & _ & H3) (U1 & U2 & U3 & U4) HO HL W. split; [rewrite app_length; lia|]. split; [now rewrite hd_app|]. intros n y rest L F. rewrite !app_length in L.
  assert (N10 : next_ok 10 (y :: rest)) by (exists y, rest; auto).
  destruct (pa_limit ls lm (y :: rest) n HL) as [PL N7]; [lia|now apply (next_le 8 10); auto; lia|].
  destruct (pa_order ob or_ (ls ++ y :: rest) n HO) as [PO N6]; [lia|exact N7|].
  rewrite <- !app_assoc. destruct (cons_len us U1) as (z & zs & Ez & Hz). rewrite Hz in U2.
  eapply (pa_bind o _ _ _ _ _ q (us ++ ob ++ ls ++ y :: rest)).
  { rewrite Ez. cbn [app]. apply H3; [lia|]. apply (from_end 9); [|lia|lia]. unfold from. destruct (fst z); try discriminate U2. destruct k as [| |k]; try discriminate U2. cbn [is_kw kw_eqb] in U2. apply String.eqb_eq in U2 as ->. reflexivity. }
  rewrite Ez at 1. cbn [app]. eapply pa_bind; [apply pa_token|]. rewrite U2. cbn [negb].
  change (z :: zs ++ ob ++ ls ++ y :: rest) with ((z :: zs) ++ ob ++ ls ++ y :: rest). rewrite <- Ez.
  eapply (pa_bind o _ _ _ _ _ l (ob ++ ls ++ y :: rest)); [|eapply pa_bind; [exact PO|]; eapply pa_bind; [exact PL|]; apply pa_ret].
  destruct N6 as (u & us' & E & Fu). rewrite E. apply (U4 n (r_n (knot n)) [] u us'); [lia|rewrite r_n_knot; lia| |].
  - destruct b'; [reflexivity|now apply (from_end 6); auto; try lia; discriminate|].
    destruct (W eq_refl) as [-> ->]. injection E as <- <-. apply (from_le 9 10); auto.
  - destruct or_ as [[sp ol]|]; cbn [GrammarProof.P_order] in HO.
    + destruct HO as (t & s & t' & s' & vs & -> & _ & K & _). injection E as <- _. now apply (kw_is_not o "ORDER").
    + subst ob. destruct HL as [[->|(t & s & vs & -> & K)] _]; injection E as <- _; [|now apply (kw_is_not o "LIMIT")].
      apply (from_not_kw 10 y); [exact F|lia|reflexivity].
Qed.
End Cases.
