(** The parser reads the CREATE TABLE and ALTER TABLE statements of [DdlSpec.v]. *)
From Verif Require Export DdlGrammar ReadRules.
Local Open Scope string_scope.
Local Open Scope list_scope.

Section Rules.
Variable o : reading.
Notation parses := (parses o). Notation kw_tok := (kw_tok o). Notation name_tok := (name_tok o).
Ltac words H := (eapply pa_bind; [apply pb_token; discriminate|]); cbn [hd_tok fst]; kwt H.
Lemma pb_dtype no_as b ts x us n : dtype_is o no_as b ts x -> us <> [] -> type_end no_as (hd_tok us) = true -> stops (hd_tok us) = true -> length ts < n ->
  parses (parse_data_type (knot n) no_as) (ts ++ us) x us.
Proof.
  intros D U T S L. apply dtype_parses in D as [_ D]. destruct us as [|y us]; [congruence|]. apply D; [exact L|exact T|]. intros _. now apply stops_at_in, stops_stops_at.
Qed.
Lemma dtype_len no_as b ts x : dtype_is o no_as b ts x -> 0 < length ts.
Proof. intros D. now apply dtype_parses in D as [D _]. Qed.
Lemma dtype_ne no_as b ts x us : dtype_is o no_as b ts x -> ts ++ us <> [].
Proof. intros D. apply dtype_len in D. destruct ts; [cbn in D; lia|discriminate]. Qed.
(** ** Definitions *)
Lemma names_len ts l : names_are o ts l -> 1 < length ts.
Proof. destruct 1. rewrite ?app_length. cbn. rewrite app_length. cbn. lia. Qed.
Lemma names_first ts l us : names_are o ts l -> ts ++ us <> [] /\ hd_tok (ts ++ us) = TLParen.
Proof. destruct 1. now split. Qed.
Lemma pb_skip_idents ts l us m : commas (ident_is o) ts l -> us <> [] -> tok_eqb (hd_tok us) TComma = false -> length ts < m -> parses (skip_identifiers m) (ts ++ us) tt us.
Proof. intros C U N L. eapply pa_bind; [apply (pb_idents o ts l); assumption|apply pa_ret]. Qed.
Lemma pb_foreign_def t s t1 v s1 t2 s2 t3 s3 cs l t4 s4 t5 v5 s5 cs' l' ds us m :
    kw_tok "CONSTRAINT" t -> name_tok t1 v -> kw_tok "FOREIGN" t2 -> kw_tok "KEY" t3 -> names_are o cs l ->
    kw_tok "REFERENCES" t4 -> name_tok t5 v5 -> names_are o cs' l' -> on_delete_is o ds ->
    us <> [] -> hd_tok us = TComma \/ hd_tok us = TRParen -> length cs + length cs' < m ->
  parses (parse_create_constraint_definition m) ((t, s) :: (t1, s1) :: (t2, s2) :: (t3, s3) :: cs ++ (t4, s4) :: (t5, s5) :: cs' ++ ds ++ us) (CDConstraint s (mkIdent v s1)) us.
Proof.
  intros K N K2 K3 [p1 ts p2 l0 C] K4 N5 [p3 ts' p4 l0' C'] D U E L. norm. repeat (rewrite ?app_length in L; cbn [length] in L).
  assert (H1 : heads [W "ON"; TComma; TRParen] (ds ++ us)).
  { apply heads_app; [split; [exact U|]; destruct E as [-> | ->]; eexists; (split; [|left; reflexivity]); cbn; tauto|].
    destruct D; [now left|right; eapply heads_kw; [eassumption|now left]..]. }
  eapply pa_bind; [apply pb_kw; [exact K|discriminate]|]. eapply pa_bind; [apply pb_name; [exact N|discriminate]|].
  eapply pa_bind; [apply pb_kws2; [exact K2|exact K3|discriminate]|]. eapply pa_bind; [apply pb_tok; [ne|reflexivity]|].
  eapply pa_bind; [apply (pb_skip_idents ts l0); [exact C|discriminate|reflexivity|lia]|]. eapply pa_bind; [apply pb_tok; [ne|reflexivity]|].
  eapply pa_bind; [apply pb_kw; [exact K4|discriminate]|]. eapply pa_bind; [apply pb_name; [exact N5|discriminate]|].
  eapply pa_bind; [apply pb_tok; [ne|reflexivity]|].
  eapply pa_bind; [apply (pb_skip_idents ts' l0'); [exact C'|discriminate|reflexivity|lia]|]. eapply pa_bind; [apply pb_tok; [ne|reflexivity]|].
  apply pa_assoc. eapply (pa_bind o _ _ _ _ _ tt us); [|apply pa_ret].
  destruct D as [|td sd td1 sd1 td2 sd2 k Kd Kd1 I Kd2|td sd td1 sd1 td2 sd2 td3 sd3 Kd Kd1 Kd2 Kd3]; norm.
  - eapply pa_bind; [apply pb_skip_no; [exact U|now destruct E as [-> | ->]]|]. apply pa_ret.
  - eapply pa_bind; [apply pb_skip; [exact Kd|discriminate]|]. cbn iota. eapply pa_bind; [apply pb_kw; [exact Kd1|discriminate]|].
    cbn in I. destruct I as [<-|[<-|[]]]; words Kd2; (eapply pa_bind; [apply pb_kw; [exact Kd2|exact U]|apply pa_ret]).
  - eapply pa_bind; [apply pb_skip; [exact Kd|discriminate]|]. cbn iota. eapply pa_bind; [apply pb_kw; [exact Kd1|discriminate]|].
    words Kd2. eapply pa_bind; [apply pb_kws2; [exact Kd2|exact Kd3|exact U]|apply pa_ret].
Qed.
Lemma pb_definition ts x us n : definition_is o ts x -> us <> [] -> hd_tok us = TComma \/ hd_tok us = TRParen -> length ts < n -> parses (parse_create_definition (knot n)) (ts ++ us) x us.
Proof.
  intros [b t v s ts' d [N (k & E)] D|t s t1 v s1 t2 s2 t3 s3 cs l t4 s4 t5 v5 s5 cs' l' ds K N K2 K3 C K4 N5 C' D] U F L; norm.
  - eapply pa_bind; [apply pb_token; discriminate|]. cbn [hd_tok fst]. rewrite (name_not_kw o t v "CONSTRAINT" N eq_refl). rewrite E. rewrite <- E.
    eapply pa_bind; [apply pb_name; [exact N|now apply (dtype_ne false b ts' d)]|].
    eapply pa_bind; [apply (pb_dtype false b); [exact D|exact U|now destruct F as [-> | ->]|now destruct F as [-> | ->]|len]|apply pa_ret].
  - words K. eapply pb_foreign_def; try eassumption. rewrite r_n_knot. len.
Qed.
Lemma pb_definitions ts l s us n : definitions_are o ts l -> us <> [] -> length ts < n ->
  parses (t <- token ;; if negb (tok_eqb t TRParen) then recovered_list2 (r_n (knot n)) (parse_create_definition (knot n)) else Ret []) (ts ++ (TRParen, s) :: us) l ((TRParen, s) :: us).
Proof.
  intros [|ts' l' C] U L.
  - cbn [app]. eapply pa_bind; [apply pb_token; discriminate|]. cbn [hd_tok fst tok_eqb tok_tag Nat.eqb negb]. apply pa_ret.
  - assert (H : tok_eqb (hd_tok (ts' ++ (TRParen, s) :: us)) TRParen = false).
    { assert (G : forall ts1 x us, definition_is o ts1 x -> tok_eqb (hd_tok (ts1 ++ us)) TRParen = false).
      { intros ts1 x us1 [b t v s0 ts0 d [_ (k & ->)] _|t s0 t1 v s1 t2 s2 t3 s3 cs l0 t4 s4 t5 v5 s5 cs' l0' ds (v0 & -> & _)]; reflexivity. }
      destruct C as [ts1 x X|ts1 x s0 ts2 l2 X _]; [|rewrite <- app_assoc]; now apply (G _ x). }
    eapply pa_bind; [apply pb_token; ne|]. rewrite H. cbn [negb].
    apply (pb_list2 o _ (definition_is o) _ ts' l' n); [exact C| |exact U|exact L|rewrite r_n_knot; lia].
    intros. now apply pb_definition.
Qed.
(** ** The options of a table *)
Lemma table_option_len ts x : table_option_is o ts x -> 0 < length ts.
Proof. destruct 1; cbn; lia. Qed.
Notation option_words := [W "ENGINE"; W "CHARSET"; W "COLLATE"; W "ROW_FORMAT"; W "DEFAULT"; W "COMMENT"; W "STRICT"].
Lemma table_option_head ts x : table_option_is o ts x -> heads option_words ts.
Proof.
  intros [k c t s es t' v s' I K|k c t s t1 s1 es t' v s' I K|t s es ts' x' K|t s K]; [|eapply heads_kw; [exact K|cbn; tauto]..].
  eapply heads_kw; [exact K|]. cbn in I. intuition; match goal with H : (_, _) = (_, _) |- _ => injection H as <- <- end; cbn; tauto.
Qed.
Lemma table_options_head ts x us d : many (table_option_is o) ts x -> heads [d; TEof] us -> heads (option_words ++ [d; TEof]) (ts ++ us).
Proof.
  intros M H. apply heads_app; [eapply heads_sub; [exact H|intros y Y; apply in_or_app; now right]|].
  destruct M as [|ts1 a us1 l P M]; [now left|right]. apply heads_pre. eapply heads_sub; [now apply (table_option_head _ a)|intros y Y; apply in_or_app; now left].
Qed.
(** An option that follows is not a string. *)
Definition is_delim (d : tok) : Prop := d = TSemiColon \/ d = TDoubleDollar.
Lemma pb_table_option d pm ts x us n l : table_option_is o ts x -> is_delim d -> heads (option_words ++ [d; TEof]) us -> length ts < n ->
  reads o d pm (parse_table_option n l) (ts ++ us) (l ++ [x], Continue) us.
Proof.
  intros X D H L. pose proof (heads_ne _ _ H) as U.
  destruct X as [k c t s es t' v s' I K Q N|k c t s t1 s1 es t' v s' I K K1 Q N|t s es ts' x' K Q S|t s K]; norm;
    (eapply rd_bind; [apply rd_parses, pa_span|]); (eapply rd_bind; [apply rd_token|]); (eapply rd_bind; [apply rd_delim|]); apply rd_parses; cbn [fst snd].
  - pose proof K as (w & -> & Cw). rewrite (kw_assoc_in ident_options w k c eq_refl I).
    eapply pa_bind; [apply pb_kw; [exact K|ne]|]. destruct (pb_opt_eq o es ((t', s') :: us) Q ltac:(discriminate) (name_not_eq o t' v N)) as (y & Y).
    eapply pa_bind; [exact Y|]. eapply pa_bind; [apply pb_name; [exact N|exact U]|apply pa_ret].
  - pose proof K as (w & -> & Cw). cbn [kw_assoc ident_options is_kw kw_eqb String.eqb Ascii.eqb Bool.eqb].
    eapply pa_bind; [apply pb_kw; [exact K|ne]|]. eapply pa_bind; [apply pb_token; discriminate|]. cbn [hd_tok fst].
    pose proof K1 as (w1 & -> & Cw1). rewrite (kw_assoc_in default_options_ w1 k c eq_refl I). eapply pa_bind; [apply pb_kw; [exact K1|ne]|].
    destruct (pb_opt_eq o es ((t', s') :: us) Q ltac:(discriminate) (name_not_eq o t' v N)) as (y & Y).
    eapply pa_bind; [exact Y|]. eapply pa_bind; [apply pb_name; [exact N|exact U]|apply pa_ret].
  - pose proof K as (w & -> & Cw). cbn [kw_assoc ident_options is_kw kw_eqb String.eqb Ascii.eqb Bool.eqb].
    eapply pa_bind; [apply pb_kw; [exact K|ne]|]. pose proof (string_len _ _ S) as SL.
    destruct (pb_opt_eq o es (ts' ++ us) Q ltac:(ne)) as (y & Y). { rewrite hd_app by exact SL. destruct (string_hd _ _ S) as (v & [-> | ->]); reflexivity. }
    eapply pa_bind; [exact Y|]. eapply pa_bind; [apply pb_string; [exact S|exact U| |len]|apply pa_ret]. destruct D as [-> | ->]; hd_tac H.
  - pose proof K as (w & -> & Cw). cbn [kw_assoc ident_options is_kw kw_eqb String.eqb Ascii.eqb Bool.eqb].
    eapply pa_bind; [apply pb_kw; [exact K|exact U]|apply pa_ret].
Qed.
Lemma pb_table_options d pm ts x us n : many (table_option_is o) ts x -> is_delim d -> heads [d; TEof] us -> length ts < n ->
  reads o d pm (loop_acc n (parse_table_option n) []) (ts ++ us) (x, true) us.
Proof.
  intros M D H L. assert (G : forall m acc, length ts < m -> reads o d pm (loop_acc m (parse_table_option n) acc) (ts ++ us) (acc ++ x, true) us); [|apply (G _ [] L)].
  pose proof (heads_ne _ _ H) as U.
  induction M as [|ts1 a us1 l P M IH]; intros m acc Lm; (destruct m as [|m]; [lia|]); cbn [loop_acc app].
  - rewrite app_nil_r. eapply (rd_try o d pm _ _ _ _ _ (acc, Break) us); [|apply rd_ret]. destruct us as [|y us]; [congruence|].
    eapply rd_bind; [apply rd_parses, pa_span|]. eapply rd_bind; [apply rd_token|]. eapply rd_bind; [apply rd_delim|].
    assert (E : fst y = d \/ fst y = TEof).
    { destruct H as (_ & p & I & E). cbn [hd_tok] in E. cbn [In] in I. destruct I as [<-|[<-|[]]]; destruct E as [E|(v & v' & k & E' & E)]; auto; [|discriminate]. destruct D as [-> | ->]; discriminate. }
    destruct E as [-> | ->]; [destruct D as [-> | ->]|destruct D as [-> | ->]]; apply rd_ret.
  - norm. pose proof (table_option_len _ _ P). rewrite app_length in L, Lm.
    eapply (rd_try o d pm _ _ _ _ _ (acc ++ [a], Continue) (us1 ++ us)).
    + apply pb_table_option; [exact P|exact D|now apply (table_options_head us1 l)|lia].
    + cbn iota. replace (acc ++ a :: l) with ((acc ++ [a]) ++ l) by now rewrite <- app_assoc. apply IH; lia.
Qed.
(** ** CREATE TABLE *)
Lemma pb_table_head is i ns q s us n : table_not_exists_is o is i -> qname_is o ns q -> length ns <= n ->
  parses (recovered_acc "'('" (fun t => tok_eqb t TLParen) (create_table_head n)) (is ++ ns ++ (TLParen, s) :: us) (q, i) ((TLParen, s) :: us).
Proof.
  intros I Q L. unfold recovered_acc. eapply (pa_bind o _ _ _ _ _ (q, i, true) ((TLParen, s) :: us)).
  2:{ cbn iota. eapply pa_bind; [apply pa_ret|]. eapply pa_bind; [|apply pa_ret]. eapply pa_bind; [apply pa_token|]. cbn [fst tok_eqb tok_tag Nat.eqb]. apply pa_ret. }
  destruct I as [|t s0 t1 s1 t2 s2 K K1 K2]; norm; unfold create_table_head.
  - eapply pa_bind; [apply pb_skip_no; [ne|now apply (qname_not_kw o ns q)]|]. cbn iota. eapply (pa_try o _ _ _ _ _ q); [apply pb_qname; [exact Q|discriminate|reflexivity|exact L]|apply pa_ret].
  - eapply pa_bind; [apply pb_skip; [exact K|discriminate]|]. cbn iota. eapply (pa_try o _ _ _ _ _ (join s2 s1)); [apply pb_kws2; [exact K1|exact K2|ne]|]. cbn iota.
    eapply (pa_try o _ _ _ _ _ q); [apply pb_qname; [exact Q|discriminate|reflexivity|exact L]|apply pa_ret].
Qed.
Lemma rd_create d pm hs s l us n x vs : create_is o hs s l -> heads created us -> length hs < n -> reads o d pm (create_body (knot n) s l) us x vs ->
  reads o d pm (parse_create (knot n)) (hs ++ us) x vs.
Proof.
  intros C H L B. assert (X : reads o d pm (x <- create_head (knot n) ;; create_body (knot n) (fst x) (snd x)) (hs ++ us) x vs).
  { eapply rd_bind; [apply rd_parses; apply (pb_create_head o hs s l us n C H L)|exact B]. }
  intros st A O De P. rewrite run_create. now apply X.
Qed.
Lemma pb_table d pm ts x us n : create_table_is o ts x -> is_delim d -> heads [d; TEof] us -> length ts < n ->
  reads o d pm (parse_create (knot n)) (ts ++ us) x us.
Proof.
  intros [hs s l t s1 is i ns q p1 ds dl p2 os ol C K I Q Df M] D H L. norm. pose proof (heads_ne _ _ H) as U.
  apply (rd_create d pm hs s l); [exact C|eapply heads_kw; [exact K|cbn; tauto]|len|].
  eapply rd_bind; [apply rd_token|]. cbn [fst]. kwt K. eapply rd_bind; [apply rd_parses, pb_kw; [exact K|ne]|].
  eapply rd_bind; [apply rd_parses, pb_table_head; [exact I|exact Q|rewrite r_n_knot; len]|]. cbn iota.
  eapply rd_bind; [apply rd_parses, pb_tok; [ne|reflexivity]|].
  apply rd_assoc. eapply rd_bind; [apply rd_parses, pb_definitions; [exact Df|ne|len]|].
  eapply rd_bind; [apply rd_parses, pb_tok; [ne|reflexivity]|]. eapply rd_bind; [apply rd_delim|].
  eapply rd_bind; [|apply rd_ret]. apply rd_recovered_acc; [apply pb_table_options; [exact M|exact D|exact H|rewrite r_n_knot; len]|exact U|].
  destruct D as [-> | ->]; hd_tac H.
Qed.
(** ** ALTER TABLE *)
Lemma pb_index_col ts x us : index_col_is o ts x -> us <> [] -> hd_tok us = TComma \/ hd_tok us = TRParen -> parses parse_index_col (ts ++ us) x us.
Proof.
  intros [t v s N|t v s s1 w s2 s3 N B] U E; cbn [app].
  - eapply pa_bind; [apply pb_name; [exact N|exact U]|]. eapply pa_bind; [apply pb_skip_tok_no; [exact U|now destruct E as [-> | ->]]|]. cbn iota. eapply pa_bind; apply pa_ret.
  - eapply pa_bind; [apply pb_name; [exact N|discriminate]|]. eapply pa_bind; [apply pb_skip_tok; [discriminate|reflexivity]|]. cbn iota.
    eapply (pa_bind o _ _ _ _ _ (Some (digits_value w, s2)) us); [|apply pa_ret].
    eapply (pa_bind o _ _ _ _ _ (digits_value w, s2) ((TRParen, s3) :: us)); [|eapply pa_bind; [apply pb_tok; [exact U|reflexivity]|apply pa_ret]].
    eapply pa_recovered; [apply pb_int; [exact B|discriminate]|reflexivity].
Qed.
Lemma pb_index_cols ts x us m : index_cols_are o ts x -> us <> [] -> length ts < m -> parses (parse_index_cols m) (ts ++ us) x us.
Proof.
  intros [s1 ts' s2 l C] U L. norm. eapply pa_bind; [apply pb_tok; [ne|reflexivity]|].
  eapply pa_bind; [apply (pb_sep_rec o _ (index_col_is o) _ _ ts' l m); [exact C| |exact U|len|len]|]. { intros. now apply pb_index_col. }
  eapply pa_bind; [apply pb_tok; [exact U|reflexivity]|apply pa_ret].
Qed.
Lemma pb_cols ts x us m : names_are o ts x -> us <> [] -> length ts < m -> parses (parse_cols m) (ts ++ us) x us.
Proof.
  intros [s1 ts' s2 l C] U L. norm. eapply pa_bind; [apply pb_tok; [ne|reflexivity]|].
  eapply pa_bind; [apply (pb_sep_rec o _ (ident_is o) _ _ ts' l m); [exact C| |exact U|len|len]|]. { intros. now apply pb_ident. }
  eapply pa_bind; [apply pb_tok; [exact U|reflexivity]|apply pa_ret].
Qed.
Lemma index_cols_head ts x us : index_cols_are o ts x -> heads [TLParen] (ts ++ us).
Proof. intros [s1 ts' s2 l C]. apply heads_tok. now left. Qed.
Lemma pb_index_using ts x us : index_using_is o ts x -> us <> [] -> parses parse_index_type (ts ++ us) x us.
Proof.
  intros [k c t s t' s' I K K'] U. norm. eapply pa_bind; [apply pb_kw; [exact K|discriminate]|]. eapply pa_bind; [apply pb_token; discriminate|]. cbn [hd_tok fst].
  pose proof K' as (v & -> & C). rewrite (kw_assoc_in Alter.index_types v k c eq_refl I). eapply pa_bind; [apply pb_kw; [exact K'|exact U]|apply pa_ret].
Qed.
Lemma index_using_head ts x us : index_using_is o ts x -> heads [W "USING"] (ts ++ us).
Proof. intros [k c t s t' s' I K K']. eapply heads_kw; [exact K|now left]. Qed.
Lemma opt_using_head ts x us ps : opt_using_is o ts x -> heads ps us -> In (W "USING") ps -> heads ps (ts ++ us).
Proof. intros [|ts' x' X] H I; [exact H|]. eapply heads_sub; [now apply (index_using_head ts' x')|]. intros y [<-|[]]; exact I. Qed.
Lemma index_option_head ts x : index_option_is o ts x -> heads [W "USING"; W "COMMENT"] ts.
Proof.
  intros [ts' x' X|t s ts' x' K S]; [|eapply heads_kw; [exact K|cbn; tauto]].
  pose proof (index_using_head ts' x' [] X) as H. rewrite app_nil_r in H. eapply heads_sub; [exact H|]. intros y [<-|[]]; now left.
Qed.
Notation spec_ends := [TComma; TSemiColon; TDoubleDollar; TEof].
Lemma pb_index_options ts x us n acc : many (index_option_is o) ts x -> heads spec_ends us -> length ts < n ->
  parses (parse_index_options n acc) (ts ++ us) (acc ++ x) us.
Proof.
  intros M H L. unfold parse_index_options. set (body := fun l : list index_option => _). pose proof (heads_ne _ _ H) as U.
  assert (G : forall m acc, length ts < m -> parses (loop m body acc) (ts ++ us) (acc ++ x) us); [|now apply G]. clear acc.
  induction M as [|ts1 a us1 l P M IH]; intros m acc Lm; (destruct m as [|m]; [lia|]); cbn [loop app].
  - rewrite app_nil_r. eapply (pa_bind o _ _ _ _ _ (inr acc)); [|apply pa_ret]. eapply pa_bind; [apply pb_token; exact U|].
    replace (is_kw (hd_tok us) "USING") with false by (symmetry; hd_tac H). replace (is_kw (hd_tok us) "COMMENT") with false by (symmetry; hd_tac H). apply pa_ret.
  - norm. rewrite app_length in L, Lm.
    assert (H1 : heads (W "USING" :: W "COMMENT" :: spec_ends) (us1 ++ us)).
    { apply heads_app; [eapply heads_sub; [exact H|apply incl_tl, incl_tl, incl_refl]|]. destruct M as [|ts2 a2 us2 l2 P2 M2]; [now left|right].
      apply heads_pre. eapply heads_sub; [now apply (index_option_head _ a2)|]. intros y [<-|[<-|[]]]; cbn; tauto. }
    assert (L1 : 0 < length ts1) by (destruct P as [ts2 x2 P|]; [destruct P|]; cbn; lia).
    eapply (pa_bind o _ _ _ _ _ (inl (acc ++ [a])) (us1 ++ us)).
    + destruct P as [ts' x' X|t s ts' x' K S].
      * pose proof (index_using_head ts' x' (us1 ++ us) X) as H2. eapply pa_bind; [apply pb_token; ne|].
        replace (is_kw (hd_tok (ts' ++ us1 ++ us)) "USING") with true by (symmetry; hd_tac H2).
        eapply pa_bind; [apply pb_index_using; [exact X|ne]|apply pa_ret].
      * norm. words K. eapply pa_bind; [apply pb_kw; [exact K|ne]|]. eapply pa_bind; [apply pb_string; [exact S|ne|hd_tac H1|len]|apply pa_ret].
    + cbn iota. replace (acc ++ a :: l) with ((acc ++ [a]) ++ l) by now rewrite <- app_assoc. apply IH; lia.
Qed.
Lemma pb_fk_on t s ts x us : fk_on_is o ((t, s) :: ts) x -> us <> [] -> parses (parse_fk_on s) (ts ++ us) x us.
Proof.
  intros X U. inversion X as [k c t0 s0 t' s' ts' a I K K' A E1 E2]; subst. norm.
  eapply pa_bind; [apply pb_token; discriminate|]. cbn [hd_tok fst].
  eapply (pa_bind o _ _ _ _ _ (mkTag c (join s' s)) (ts' ++ us)).
  { assert (U' : ts' ++ us <> []) by now apply ne_app. cbn in I. destruct I as [E|[E|[]]]; injection E as <- <-; kwt K'; (eapply pa_bind; [apply pb_kw; [exact K'|exact U']|apply pa_ret]). }
  destruct A as [k' c' t1 s1 I' K1|t1 s1 t2 s2 K1 K2]; norm.
  - eapply pa_bind; [apply pb_token; discriminate|]. cbn [hd_tok fst]. eapply (pa_bind o _ _ _ _ _ (mkTag c' s1) us); [|apply pa_ret].
    cbn in I'. destruct I' as [E|[E|[]]]; injection E as <- <-; kwt K1; (eapply pa_bind; [apply pb_kw; [exact K1|exact U]|apply pa_ret]).
  - words K1. eapply pa_bind; [|apply pa_ret]. eapply pa_bind; [apply pb_kw; [exact K1|discriminate]|]. words K2. eapply pa_bind; [apply pb_kw; [exact K2|exact U]|apply pa_ret].
Qed.
Definition read_fk_ons (n : nat) : prog (list foreign_key_on) :=
  loop n (fun l : list foreign_key_on =>
           o <- skip_keyword "ON" ;;
           match o with
           | Some on => f <- parse_fk_on on ;; Ret (inl (l ++ [f]))
           | None => Ret (inr l)
           end) [].
Lemma pb_fk_ons ts x us n : many (fk_on_is o) ts x -> us <> [] -> is_kw (hd_tok us) "ON" = false -> length ts < n -> parses (read_fk_ons n) (ts ++ us) x us.
Proof.
  intros M U H L. unfold read_fk_ons. set (body := fun l : list foreign_key_on => _).
  assert (G : forall m acc, length ts < m -> parses (loop m body acc) (ts ++ us) (acc ++ x) us); [|now apply (G n [])]. clear L.
  induction M as [|ts1 a us1 l P M IH]; intros m acc Lm; (destruct m as [|m]; [lia|]); cbn [loop app].
  - rewrite app_nil_r. eapply (pa_bind o _ _ _ _ _ (inr acc)); [|apply pa_ret]. eapply pa_bind; [now apply pb_skip_no|]. apply pa_ret.
  - norm. rewrite app_length in Lm. pose proof P as P'. destruct P' as [k c t s t' s' ts' a' I K K' A]. norm. cbn [length] in Lm.
    eapply (pa_bind o _ _ _ _ _ (inl (acc ++ [mkFKOn (mkTag c (join s' s)) a'])) (us1 ++ us)).
    + eapply pa_bind; [apply pb_skip; [exact K|discriminate]|]. cbn iota. eapply pa_bind; [apply (pb_fk_on t s ((t', s') :: ts')); [exact P|ne]|apply pa_ret].
    + cbn iota. match goal with |- context[acc ++ ?a :: l] => replace (acc ++ a :: l) with ((acc ++ [a]) ++ l) by now rewrite <- app_assoc end. apply IH; lia.
Qed.
(** *** The specifications *)
Lemma pb_constraint ts x us : constraint_is o ts x -> us <> [] -> is_kw (hd_tok us) "CONSTRAINT" = false -> is_unreserved (hd_tok us) = false -> parses parse_constraint (ts ++ us) x us.
Proof.
  intros [|t s ns n K N] U C R; norm.
  - eapply pa_bind; [now apply pb_skip_no|]. apply pa_ret.
  - eapply pa_bind; [apply pb_skip; [exact K|ne]|]. cbn iota. eapply pa_bind; [apply pb_opt_name; [exact N|exact U|exact R]|apply pa_ret].
Qed.
Lemma kw_reserved_head k t s us : kw_tok k t -> kw_reserved (KW k) = true -> is_unreserved (hd_tok ((t, s) :: us)) = false.
Proof. intros (v & -> & _) R. cbn [hd_tok fst is_unreserved]. now rewrite R. Qed.
Lemma reserved_unreserved t k : is_kw t k = true -> kw_reserved (KW k) = true -> is_unreserved t = false.
Proof. destruct t; try discriminate. intros E R. destruct k0 as [| |w]; try discriminate. cbn [is_kw kw_eqb] in E. apply String.eqb_eq in E as ->. cbn [is_unreserved]. now rewrite R. Qed.
Lemma pb_kind ts x us m s c : index_kind_is o ts x -> us <> [] -> forall y vs,
  parses (ine <- parse_if_not_exists ;; name <- opt_name ;; t <- token ;;
    opts <- (if is_kw t "USING" then o <- parse_index_type ;; Ret [o] else Ret []) ;; cols <- parse_index_cols m ;; opts <- parse_index_options m opts ;;
    Ret (AddIndex s x ine name c cols opts)) us y vs ->
  heads [W "PRIMARY"; W "INDEX"; W "KEY"; W "FULLTEXT"] (ts ++ us) /\ parses (parse_add_index m s c) (ts ++ us) y vs.
Proof.
  intros [t s1 t' s' K K'|t s1 K|t s1 t' s' K K'] U y vs B; norm.
  - split; [eapply heads_kw; [exact K|now left]|]. words K. eapply pa_bind; [eapply pa_bind; [apply pb_kws2; [exact K|exact K'|exact U]|apply pa_ret]|exact B].
  - assert (E : exists v k, t = TIdent v (KW k) /\ (k = "INDEX" \/ k = "KEY")) by (destruct K as [(v & ->)|(v & ->)]; eauto 6). destruct E as (v & k & -> & E).
    split; [split; [discriminate|]; exists (W k); split; [destruct E as [-> | ->]; cbn; tauto|right; exists v, [], k; split; reflexivity]|].
    eapply pa_bind; [apply pb_token; discriminate|]. cbn [hd_tok fst].
    eapply (pa_bind o _ _ _ _ _ _ us); [|exact B]. destruct E as [-> | ->]; cbn [is_kw kw_eqb String.eqb Ascii.eqb Bool.eqb orb]; (eapply pa_bind; [apply pb_consume; [exact U|np]|apply pa_ret]).
  - split; [eapply heads_kw; [exact K|cbn; tauto]|]. words K. eapply pa_bind; [|exact B]. eapply pa_bind; [apply pb_kw; [exact K|discriminate]|].
    eapply pa_bind; [apply pb_token; discriminate|]. cbn [hd_tok fst].
    destruct K' as [K'|K']; pose proof K' as (v & -> & C); cbn [kw_assoc is_kw kw_eqb String.eqb Ascii.eqb Bool.eqb]; (eapply pa_bind; [apply pb_kw; [exact K'|exact U]|apply pa_ret]).
Qed.
Lemma pb_column_not_exists ts x us : column_not_exists_is o ts x -> us <> [] -> is_kw (hd_tok us) "IF" = false ->
  parses (t <- token ;; if is_kw t "IF" then s <- consume_keywords ["IF"; "NOT"; "EXISTS"] ;; Ret (Some s) else Ret None) (ts ++ us) x us /\ (x = None \/ o_dialect o <> MariaDB).
Proof.
  intros [|t s t1 s1 t2 s2 D K K1 K2] U F; norm.
  - split; [|now left]. eapply pa_bind; [now apply pb_token|]. rewrite F. apply pa_ret.
  - split; [|now right]. words K. eapply pa_bind; [apply pb_kws3; [exact K|exact K1|exact K2|exact U]|apply pa_ret].
Qed.
Lemma pb_column_action ts x us n : column_action_is o ts x -> heads spec_ends us -> length ts < n -> parses (parse_alter_column_action (knot n)) (ts ++ us) x us.
Proof.
  intros X H L. pose proof (heads_ne _ _ H) as U.
  destruct X as [t s t' s' ts' e (v & ->) (v' & ->) E|t s t1 s1 t2 s2 (v & ->) K1 K2|t s t' s' (v & ->) (v' & ->)|t s t1 s1 t2 s2 (v & ->) K1 K2|b t s ts' d (v & ->) D]; norm;
    (eapply pa_bind; [apply pb_token; discriminate|]); cbn [hd_tok fst is_kw kw_eqb String.eqb Ascii.eqb Bool.eqb].
  - eapply pa_bind; [apply pb_consume; [discriminate|np]|]. eapply pa_bind; [apply pb_token; discriminate|]. cbn [hd_tok fst is_kw kw_eqb String.eqb Ascii.eqb Bool.eqb].
    eapply pa_bind; [apply pb_consume; [ne|np]|]. eapply pa_bind; [apply pb_expr; [exact E|exact U|hd_tac H|len]|apply pa_ret].
  - eapply pa_bind; [apply pb_consume; [discriminate|np]|]. words K1. eapply pa_bind; [apply pb_kws2; [exact K1|exact K2|exact U]|apply pa_ret].
  - eapply pa_bind; [apply pb_consume; [discriminate|np]|]. eapply pa_bind; [apply pb_token; discriminate|]. cbn [hd_tok fst is_kw kw_eqb String.eqb Ascii.eqb Bool.eqb].
    eapply pa_bind; [apply pb_consume; [exact U|np]|apply pa_ret].
  - eapply pa_bind; [apply pb_consume; [discriminate|np]|]. words K1. eapply pa_bind; [apply pb_kws2; [exact K1|exact K2|exact U]|apply pa_ret].
  - eapply pa_bind; [apply pb_consume; [now apply (dtype_ne false b ts' d)|np]|]. eapply pa_bind; [apply (pb_dtype false b); [exact D|exact U|hd_tac H|hd_tac H|len]|apply pa_ret].
Qed.
Lemma pb_spec ts x us n : spec_is o ts x -> heads spec_ends us -> length ts < n -> parses (parse_alter_specification (knot n)) (ts ++ us) x us.
Proof.
  intros X H L. pose proof (heads_ne _ _ H) as U.
  destruct X as [b t s t1 s1 is i t2 v s2 ts d K K1 I N D|t s cs c ks k is i ns nm vs u xs x os ol K C Kd I N G X M
    |t s cs c t1 s1 t2 s2 is i ns nm xs x t3 s3 t4 v4 s4 rs r fs f K C K1 K2 I N X K3 N4 R M|b t s cs c is i t2 v s2 ts d K C I N D
    |t s t1 s1 t2 v s2 cs c K K1 N C|t s t1 s1 t2 v s2 ts a K K1 N A|t s t1 s1 t2 v s2 K K1 N]; norm.
  - words K. eapply pa_bind; [apply pb_kw; [exact K|discriminate]|].
    eapply (pa_bind o _ _ _ _ _ None); [eapply pa_bind; [apply pb_skip_no; [discriminate|cbn [hd_tok fst]; now kwt K1]|apply pa_ret]|].
    words K1. eapply pa_bind; [apply pb_kw; [exact K1|ne]|].
    destruct (pb_column_not_exists is i ((t2, s2) :: ts ++ us) I ltac:(discriminate) (name_not_kw o t2 v "IF" N eq_refl)) as [P Dm].
    apply pa_assoc. eapply pa_bind; [exact P|]. eapply pa_bind; [apply pa_dialect|].
    eapply (pa_bind o _ _ _ _ _ tt). { destruct i; [|apply pa_ret]. destruct Dm as [Dm|Dm]; [discriminate|]. destruct (o_dialect o); [congruence|apply pa_ret..]. }
    eapply pa_bind; [apply pb_name; [exact N|now apply (dtype_ne false b ts d)]|].
    eapply pa_bind; [apply (pb_dtype false b); [exact D|exact U|hd_tac H|hd_tac H|len]|apply pa_ret].
  - pose proof (index_cols_head xs x (os ++ us) X) as H1.
    assert (H2 : heads [W "USING"; TLParen] (vs ++ xs ++ os ++ us)) by (eapply opt_using_head; [exact G|eapply heads_sub; [exact H1|apply incl_tl, incl_refl]|now left]).
    assert (IFn : is_kw (hd_tok (ns ++ vs ++ xs ++ os ++ us)) "IF" = false).
    { destruct N as [|tn vn sn [Nn _]]; [cbn [app]; hd_tac H2|cbn [app hd_tok fst]; now apply (name_not_kw o tn vn)]. }
    assert (B : parses (ine <- parse_if_not_exists ;; name <- opt_name ;; t <- token ;;
      opts <- (if is_kw t "USING" then o <- parse_index_type ;; Ret [o] else Ret []) ;; cols <- parse_index_cols (r_n (knot n)) ;; opts <- parse_index_options (r_n (knot n)) opts ;;
      Ret (AddIndex s k ine name c cols opts : alter_specification expr)) (is ++ ns ++ vs ++ xs ++ os ++ us) (AddIndex s k i nm c x (u ++ ol) : alter_specification expr) us).
    { eapply pa_bind; [apply pb_if_not_exists; [exact I|ne|exact IFn]|].
      eapply pa_bind; [apply pb_opt_name; [exact N|ne|hd_tac H2]|].
      apply pa_assoc. eapply (pa_bind o _ _ _ _ _ u (xs ++ os ++ us)).
      { destruct G as [|ts' x' G]; norm; (eapply pa_bind; [apply pb_token; ne|]).
        - replace (is_kw (hd_tok (xs ++ os ++ us)) "USING") with false by (symmetry; hd_tac H1). apply pa_ret.
        - pose proof (index_using_head ts' x' (xs ++ os ++ us) G) as H3. replace (is_kw (hd_tok (ts' ++ xs ++ os ++ us)) "USING") with true by (symmetry; hd_tac H3).
          eapply pa_bind; [apply pb_index_using; [exact G|ne]|apply pa_ret]. }
      eapply pa_bind; [apply pb_index_cols; [exact X|ne|rewrite r_n_knot; len]|]. eapply pa_bind; [apply pb_index_options; [exact M|exact H|rewrite r_n_knot; len]|apply pa_ret]. }
    assert (U2 : is ++ ns ++ vs ++ xs ++ os ++ us <> []) by ne.
    destruct (pb_kind ks k _ _ s c Kd U2 _ _ B) as [H4 P].
    words K. eapply pa_bind; [apply pb_kw; [exact K|ne]|].
    eapply pa_bind; [apply pb_constraint; [exact C|ne|hd_tac H4|hd_tac H4]|]. eapply pa_bind; [apply pb_token; ne|].
    replace (is_kw (hd_tok (ks ++ is ++ ns ++ vs ++ xs ++ os ++ us)) "FOREIGN") with false by (symmetry; hd_tac H4).
    match goal with |- context[if ?b then _ else _] => replace b with true by (symmetry; hd_tac H4) end. exact P.
  - pose proof (index_cols_head xs x ((t3, s3) :: (t4, s4) :: rs ++ fs ++ us) X) as H1.
    assert (IFn : is_kw (hd_tok (ns ++ xs ++ (t3, s3) :: (t4, s4) :: rs ++ fs ++ us)) "IF" = false).
    { destruct N as [|tn vn sn [Nn _]]; [cbn [app]; hd_tac H1|cbn [app hd_tok fst]; now apply (name_not_kw o tn vn)]. }
    words K. eapply pa_bind; [apply pb_kw; [exact K|ne]|].
    eapply pa_bind; [apply pb_constraint; [exact C|ne|cbn [hd_tok fst]; now kwt K1|now apply (kw_reserved_head "FOREIGN")]|]. words K1.
    eapply pa_bind; [apply pb_kws2; [exact K1|exact K2|ne]|]. eapply pa_bind; [apply pb_if_not_exists; [exact I|ne|exact IFn]|].
    eapply pa_bind; [apply pb_opt_name; [exact N|ne|hd_tac H1]|]. eapply pa_bind; [apply pb_index_cols; [exact X|discriminate|rewrite r_n_knot; len]|].
    eapply pa_bind; [apply pb_kw; [exact K3|discriminate]|]. destruct (names_first rs r (fs ++ us) R) as [U5 _]. eapply pa_bind; [apply pb_name; [exact N4|exact U5]|].
    eapply pa_bind; [apply pb_cols; [exact R|ne|rewrite r_n_knot; len]|]. eapply pa_bind; [apply pb_fk_ons; [exact M|exact U|hd_tac H|rewrite r_n_knot; len]|apply pa_ret].
  - words K. eapply pa_bind; [apply pb_kw; [exact K|ne]|].
    eapply pa_bind; [apply pb_opt; [exact C|ne|]|]. { destruct I as [|ti si ti' si' Ki Ki']; cbn [app hd_tok fst]; [now apply (name_not_kw o t2 v)|now kwt Ki]. }
    eapply pa_bind; [apply pb_if_exists; [exact I|ne|cbn [hd_tok fst]; now apply (name_not_kw o t2 v)]|].
    eapply pa_bind; [apply pb_name; [exact N|now apply (dtype_ne false b ts d)]|].
    eapply pa_bind; [apply (pb_dtype false b); [exact D|exact U|hd_tac H|hd_tac H|len]|apply pa_ret].
  - words K. eapply pa_bind; [apply pb_kws2; [exact K|exact K1|discriminate]|]. eapply pa_bind; [apply pb_name; [exact N|ne]|].
    eapply pa_bind; [apply pb_opt; [exact C|exact U|hd_tac H]|apply pa_ret].
  - assert (U1 : ts ++ us <> []) by ne. words K. eapply pa_bind; [apply pb_kws2; [exact K|exact K1|discriminate]|]. eapply pa_bind; [apply pb_name; [exact N|exact U1]|].
    eapply pa_bind; [apply pb_column_action; [exact A|exact H|len]|apply pa_ret].
  - words K. eapply pa_bind; [apply pb_kws2; [exact K|exact K1|discriminate]|]. eapply pa_bind; [apply pb_name; [exact N|exact U]|apply pa_ret].
Qed.
Lemma pb_specs d pm ts l us m n : commas (spec_is o) ts l -> is_delim d -> heads [d; TEof] us -> length ts < n -> length ts < m ->
  reads o d pm (loop_acc m (fun l : list (alter_specification expr) =>
                a <- parse_alter_specification (knot n) ;;
                c <- skip_token TComma ;;
                Ret (l ++ [a], match c with Some _ => Continue | None => Break end)) []) (ts ++ us) (l, true) us.
Proof.
  intros C D H L Lm. set (body := fun l : list (alter_specification expr) => _). pose proof (heads_ne _ _ H) as U.
  assert (H0 : heads spec_ends us) by (eapply heads_sub; [exact H|]; intros y [<-|[<-|[]]]; [destruct D as [-> | ->]|]; cbn; tauto).
  assert (G : forall acc, reads o d pm (loop_acc m body acc) (ts ++ us) (acc ++ l, true) us); [|apply (G [])].
  revert m Lm. induction C as [ts a X|ts a s ts' l X C IH]; intros m Lm acc; (destruct m as [|m]; [lia|]); cbn [loop_acc].
  - eapply (rd_try o d pm _ _ _ _ _ (acc ++ [a], Break)); [|apply rd_ret]. apply rd_parses. eapply pa_bind; [apply pb_spec; [exact X|exact H0|exact L]|].
    eapply pa_bind; [apply pb_skip_tok_no; [exact U|destruct D as [-> | ->]; hd_tac H]|apply pa_ret].
  - rewrite app_length in L, Lm. cbn [length] in L, Lm. rewrite <- app_assoc. cbn [app].
    eapply (rd_try o d pm _ _ _ _ _ (acc ++ [a], Continue)).
    + apply rd_parses. eapply pa_bind; [apply pb_spec; [exact X|apply heads_tok; now left|lia]|]. eapply pa_bind; [apply pb_skip_tok; [ne|reflexivity]|apply pa_ret].
    + cbn iota. replace (acc ++ a :: l) with ((acc ++ [a]) ++ l) by now rewrite <- app_assoc. apply IH; lia.
Qed.
Lemma spec_head ts x us : spec_is o ts x -> heads [W "ADD"; W "MODIFY"; W "OWNER"; W "DROP"; W "ALTER"] (ts ++ us).
Proof. intros []; norm; (eapply heads_kw; [eassumption|cbn; tauto]). Qed.
Lemma pb_alter d pm ts x us n : alter_is o ts x -> is_delim d -> heads [d; TEof] us -> length ts < n ->
  reads o d pm (parse_alter (knot n)) (ts ++ us) x us.
Proof.
  intros [t s os on gs ig t1 s1 is i ns q ts' l K On Ig K1 I Q C] D H L. norm. pose proof (heads_ne _ _ H) as U.
  assert (H1 : heads [W "ADD"; W "MODIFY"; W "OWNER"; W "DROP"; W "ALTER"] (ts' ++ us)).
  { destruct C as [ts0 a X|ts0 a s0 ts0' l0 X _]; [|rewrite <- app_assoc]; now apply (spec_head ts0 a). }
  eapply rd_bind; [apply rd_parses, pb_kw; [exact K|ne]|].
  eapply rd_bind; [apply rd_parses, pb_opt; [exact On|ne|]|]. { destruct Ig as [|tg sg Kg]; cbn [app hd_tok fst]; [now kwt K1|now kwt Kg]. }
  eapply rd_bind; [apply rd_parses, pb_opt; [exact Ig|discriminate|cbn [hd_tok fst]; now kwt K1]|].
  eapply rd_bind; [apply rd_token|]. cbn [fst]. kwt K1. eapply rd_bind; [apply rd_parses, pb_kw; [exact K1|ne]|].
  eapply rd_bind; [apply rd_parses, pb_if_exists; [exact I|ne|now apply (qname_not_kw o ns q)]|].
  eapply rd_bind; [apply rd_parses, pb_qname; [exact Q|ne|hd_tac H1|rewrite r_n_knot; len]|]. eapply rd_bind; [apply rd_delim|].
  eapply rd_bind; [|apply rd_ret]. apply rd_recovered_acc; [apply pb_specs; [exact C|exact D|exact H|len|rewrite r_n_knot; len]|exact U|].
  destruct D as [-> | ->]; hd_tac H.
Qed.
End Rules.
