(** The parser reads what the grammar of [DdlSpec.v] generates. *)
From Verif Require Export DdlSpec StmtGrammar.
Local Open Scope string_scope.
Local Open Scope list_scope.

(** What can be created. *)
Notation created := [W "TABLE"; W "VIEW"; W "TRIGGER"; W "FUNCTION"; W "INDEX"; W "TYPE"].
Lemma many_impl A (P Q : tks -> A -> Prop) ts l : (forall ts a, P ts a -> Q ts a) -> many P ts l -> many Q ts l.
Proof. intros H. induction 1; constructor; auto. Qed.
Ltac kwt K := let v := fresh "v" in let E := fresh "E" in pose proof K as (v & E & _); rewrite E; cbn [is_kw kw_eqb String.eqb Ascii.eqb Bool.eqb orb hd_tok fst tok_eqb tok_tag Nat.eqb]; try (rewrite <- E; clear v E).
Ltac norm := repeat (rewrite <- ?app_assoc; cbn [app]).
Ltac ne := first [discriminate | apply ne_app; ne | eapply heads_ne; eassumption | assumption].
Ltac len := repeat (rewrite ?app_length in *; cbn [length] in *); lia.

Section Rules.
Variable o : reading.
Notation parses := (parses o). Notation kw_tok := (kw_tok o). Notation name_tok := (name_tok o).
Lemma kw_facts k t : kw_tok k t -> exists v, t = TIdent v (KW k).
Proof. intros (v & -> & _). eauto. Qed.
Lemma name_not_kw t v k : name_tok t v -> kw_reserved (KW k) = true -> is_kw t k = false.
Proof. intros N R. now apply (name_head o t v). Qed.
(** ** Words and names *)
Lemma pb_if_not_exists ts x us : if_not_exists_is o ts x -> us <> [] -> is_kw (hd_tok us) "IF" = false -> parses parse_if_not_exists (ts ++ us) x us.
Proof.
  intros [|t s t1 s1 t2 s2 K K1 K2] N F; cbn [app].
  - eapply pa_bind; [now apply pb_skip_no|]. apply pa_ret.
  - eapply pa_bind; [apply pb_skip; [exact K|discriminate]|]. cbn iota. eapply pa_bind; [apply pb_kws2; [assumption|assumption|exact N]|]. apply pa_ret.
Qed.
Lemma pb_opt_name ts x us : opt_name_is o ts x -> us <> [] -> is_unreserved (hd_tok us) = false -> parses opt_name (ts ++ us) x us.
Proof.
  intros [|t v s [N (k & ->)]] U F; cbn [app].
  - eapply pa_bind; [now apply pb_token|]. rewrite F. apply pa_ret.
  - eapply pa_bind; [apply pb_token; discriminate|]. cbn [hd_tok fst is_unreserved].
    replace (kw_reserved k) with false; [cbn [negb]; eapply pa_bind; [apply pb_name; [exact N|exact U]|apply pa_ret]|].
    destruct N as [(w & E & R & _)|[[E _]|[E _]]]; try discriminate; [|injection E as ->; reflexivity]. injection E as ->. now rewrite R.
Qed.
Lemma pb_opt_eq es us : opt_eq es -> us <> [] -> tok_eqb (hd_tok us) TEq = false -> exists x, parses (skip_token TEq) (es ++ us) x us.
Proof. intros [|s] N F; eexists; cbn [app]; [now apply pb_skip_tok_no|now apply pb_skip_tok]. Qed.
Lemma name_not_eq t v : name_tok t v -> tok_eqb t TEq = false.
Proof. now intros [(k & -> & _)|[[-> _]|[-> _]]]. Qed.
(** ** CREATE and its options *)
Lemma pb_create_option ts x us : create_option_is o ts x -> us <> [] -> parses parse_create_option (ts ++ us) (Some x) us.
Proof.
  intros [t s t' s' K K'|t s K|t s K|k c t s e t' s' I K K'|t s e u v s1 a h w s2 K N N'|k c t s t1 s1 t2 s2 I K K1 K2] U; cbn [app];
    (eapply pa_bind; [apply pb_token; discriminate|]); cbn [hd_tok fst]; kwt K.
  - eapply pa_bind; [apply pb_kws2; [assumption|assumption|exact U]|apply pa_ret].
  - eapply pa_bind; [apply pb_kw; [assumption|exact U]|apply pa_ret].
  - eapply pa_bind; [apply pb_kw; [assumption|exact U]|apply pa_ret].
  - eapply pa_bind; [apply pb_kw; [exact K|discriminate]|]. eapply pa_bind; [apply pb_tok; [discriminate|reflexivity]|].
    eapply pa_bind; [apply pb_token; discriminate|]. cbn [hd_tok fst]. pose proof K' as (v' & -> & C). rewrite (kw_assoc_in create_algorithms v' k c eq_refl I).
    eapply pa_bind; [apply pb_kw; [assumption|exact U]|apply pa_ret].
  - eapply pa_bind; [apply pb_kw; [exact K|discriminate]|]. eapply pa_bind; [apply pb_tok; [discriminate|reflexivity]|].
    eapply pa_bind; [apply pb_name; [exact N|discriminate]|]. eapply pa_bind; [apply pb_tok; [discriminate|reflexivity]|].
    eapply pa_bind; [apply pb_name; [exact N'|exact U]|apply pa_ret].
  - eapply pa_bind; [apply pb_kws2; [exact K|exact K1|discriminate]|]. eapply pa_bind; [apply pb_token; discriminate|]. cbn [hd_tok fst].
    cbn in I. destruct I as [E|[E|[]]]; injection E as <- <-; kwt K2; (eapply pa_bind; [apply pb_kw; [assumption|exact U]|apply pa_ret]).
Qed.
Lemma create_option_len ts x : create_option_is o ts x -> 0 < length ts.
Proof. destruct 1; cbn; lia. Qed.
Definition create_head (r : recs) : prog (span * list create_option) :=
  create_span <- cur_span ;;
  consume_keyword "CREATE" ;;;
  opts <- recovered_acc creatable is_creatable
            (loop_acc (r_n r) (fun l : list create_option =>
               o <- parse_create_option ;;
               match o with
               | Some o => Ret (l ++ [o], Continue)
               | None => Ret (l, Break)
               end) []) ;; Ret (create_span, opts).
Lemma created_is us : heads created us -> is_creatable (hd_tok us) = true.
Proof. intros H. hd_tac H. Qed.
Lemma pb_create_head hs s l us n : create_is o hs s l -> heads created us -> length hs < n -> parses (create_head (knot n)) (hs ++ us) (s, l) us.
Proof.
  intros [t s' os l' K M] H L. pose proof (heads_ne _ _ H) as U. norm. cbn [length] in L.
  eapply pa_bind; [apply pa_span|]. eapply pa_bind; [apply pb_kw; [exact K|ne]|]. eapply pa_bind; [|apply pa_ret].
  unfold recovered_acc. eapply (pa_bind o _ _ _ _ _ (l', true) us).
  2:{ cbn iota. eapply pa_bind; [apply pa_ret|]. eapply pa_bind; [|apply pa_ret]. eapply pa_bind; [now apply pb_token|]. rewrite (created_is _ H). apply pa_ret. }
  rewrite r_n_knot. set (body := fun l : list create_option => _).
  assert (G : forall m acc, length os < m -> parses (loop_acc m body acc) (os ++ us) (acc ++ l', true) us); [|apply (G _ []); lia]. clear L.
  induction M as [|ts a vs l1 P M IH]; intros m acc L; (destruct m as [|m]; [lia|]); cbn [loop_acc app].
  - rewrite app_nil_r. eapply (pa_try o _ _ _ _ _ (acc, Break) us); [|apply pa_ret].
    eapply (pa_bind o _ _ _ _ _ None us); [|apply pa_ret]. eapply pa_bind; [now apply pb_token|].
    replace (is_kw (hd_tok us) "OR") with false by (symmetry; hd_tac H). replace (is_kw (hd_tok us) "TEMPORARY") with false by (symmetry; hd_tac H).
    replace (is_kw (hd_tok us) "UNIQUE") with false by (symmetry; hd_tac H). replace (is_kw (hd_tok us) "ALGORITHM") with false by (symmetry; hd_tac H).
    replace (is_kw (hd_tok us) "DEFINER") with false by (symmetry; hd_tac H). replace (is_kw (hd_tok us) "SQL") with false by (symmetry; hd_tac H). apply pa_ret.
  - norm. pose proof (create_option_len _ _ P). rewrite app_length in L. eapply (pa_try o _ _ _ _ _ (acc ++ [a], Continue) (vs ++ us)).
    + eapply (pa_bind o _ _ _ _ _ (Some a)); [apply pb_create_option; [exact P|ne]|]. apply pa_ret.
    + cbn iota. replace (acc ++ a :: l1) with ((acc ++ [a]) ++ l1) by now rewrite <- app_assoc. apply IH. lia.
Qed.
(** ** Views, indexes and types *)
Lemma pb_query ts q us n : query_is o ts q -> heads (W "SET" :: W "RETURNING" :: ends) us -> length ts < n -> parses (parse_compound_query (knot n)) (ts ++ us) q us.
Proof.
  intros Q H L. apply query_parses in Q as (_ & _ & Q). destruct us as [|y us]; [now destruct H|]. apply Q; [exact L|].
  assert (F : from 10 (hd_tok (y :: us), snd y) = true); [|exact F]. unfold from. cbn [fst]. hd_tac H.
Qed.
Definition ends_more k : incl ends (k :: ends) := incl_tl k (incl_refl ends).
(** What follows the options. *)
Definition create_body (r : recs) (create_span : span) (opts : list create_option) : prog stmt :=
  t <- token ;;
  if is_kw t "INDEX" then parse_create_index r create_span opts
  else if is_kw t "TABLE" then parse_create_table r create_span opts
  else if is_kw t "VIEW" then parse_create_view r create_span opts
  else if is_kw t "FUNCTION" then parse_create_function r create_span opts
  else if is_kw t "TRIGGER" then parse_create_trigger r create_span opts
  else if is_kw t "TYPE" then parse_create_type r create_span opts
  else expected_failure creatable.
Lemma run_create r st : run (parse_create r) st = run (x <- create_head r ;; create_body r (fst x) (snd x)) st.
Proof.
  unfold parse_create, create_head. rewrite !run_bind. destruct (run cur_span st) as [s1 st1| | |]; try reflexivity.
  rewrite !run_bind. destruct (run (consume_keyword "CREATE") st1) as [s2 st2| | |]; try reflexivity.
  rewrite !run_bind. destruct (run (recovered_acc _ _ _) st2) as [s3 st3| | |]; reflexivity.
Qed.
Lemma pb_create hs s l us n x vs : create_is o hs s l -> heads created us -> length hs < n -> parses (create_body (knot n) s l) us x vs ->
  parses (parse_create (knot n)) (hs ++ us) x vs.
Proof.
  intros C H L B. assert (X : parses (x <- create_head (knot n) ;; create_body (knot n) (fst x) (snd x)) (hs ++ us) x vs).
  { eapply pa_bind; [apply (pb_create_head hs s l us n C H L)|exact B]. }
  intros st A O. rewrite run_create. now apply X.
Qed.
Ltac words H := (* the first word decides *)
  (eapply pa_bind; [apply pb_token; discriminate|]); cbn [hd_tok fst]; kwt H.
Lemma pb_view ts x us n : create_view_is o ts x -> heads ends us -> length ts < n -> parses (parse_create (knot n)) (ts ++ us) x us.
Proof.
  intros [hs s l t s1 is i ns q t' s2 ts' x' C K I Q K' X] H L. norm.
  apply (pb_create hs s l); [exact C|eapply heads_kw; [exact K|cbn; tauto]|len|]. words K.
  eapply pa_bind; [apply pb_kw; [exact K|ne]|]. eapply pa_bind; [apply pb_if_not_exists; [exact I|ne|now apply (qname_not_kw o ns q)]|].
  eapply pa_bind; [apply pb_qname; [exact Q|discriminate|cbn [hd_tok fst]; now kwt K'|rewrite r_n_knot; len]|].
  eapply pa_bind; [apply pb_kw; [exact K'|ne]|]. eapply pa_bind; [apply pb_query; [exact X|eapply heads_sub; [exact H|apply incl_tl, incl_tl, incl_refl]|len]|].
  apply pa_ret.
Qed.
Lemma pb_index_column ts x us : index_column_is o ts x -> us <> [] -> hd_tok us = TComma \/ hd_tok us = TRParen -> parses parse_index_column (ts ++ us) x us.
Proof.
  intros [t v s N|t v s k t' s' N I (w & ->) D] U E; cbn [app].
  - eapply pa_bind; [apply pb_name; [exact N|exact U]|]. eapply pa_bind; [now apply pb_token|]. destruct E as [-> | ->]; apply pa_ret.
  - eapply pa_bind; [apply pb_name; [exact N|discriminate]|]. eapply pa_bind; [apply pb_token; discriminate|]. cbn [hd_tok fst].
    rewrite (kw_assoc_in opclasses w k tt eq_refl) by (cbn in *; intuition (subst; auto 10)).
    eapply pa_bind; [apply pb_consume; [exact U|np]|]. eapply pa_bind; [apply pa_dialect|]. rewrite D. eapply pa_bind; apply pa_ret.
Qed.
Lemma pb_index ts x us n : create_index_is o ts x -> heads ends us -> length ts < n -> parses (parse_create (knot n)) (ts ++ us) x us.
Proof.
  intros [hs s l t s1 is i t1 v s2 t2 s3 ns q vs u p1 cs cl p2 ws w C K I N K2 Q G Cs Wh] H L. norm. pose proof (heads_ne _ _ H) as U.
  apply (pb_create hs s l); [exact C|eapply heads_kw; [exact K|cbn; tauto]|len|]. words K.
  eapply pa_bind; [apply pb_kw; [exact K|ne]|]. eapply pa_bind; [apply pb_if_not_exists; [exact I|discriminate|now apply (name_head o t1 v)]|].
  eapply pa_bind; [apply pb_name; [exact N|discriminate]|]. eapply pa_bind; [apply pb_kw; [exact K2|ne]|].
  assert (H1 : heads [W "USING"; TLParen] (vs ++ (TLParen, p1) :: cs ++ (TRParen, p2) :: ws ++ us)).
  { apply heads_app; [apply heads_tok; cbn; tauto|]. destruct G; [now left|right; eapply heads_kw; [eassumption|now left]]. }
  eapply pa_bind; [apply pb_qname; [exact Q|ne|hd_tac H1|rewrite r_n_knot; len]|].
  apply pa_assoc. eapply (pa_bind o _ _ _ _ _ u ((TLParen, p1) :: cs ++ (TRParen, p2) :: ws ++ us)).
  { destruct G as [|tu su tg sg Ku Kg]; cbn [app].
    - eapply pa_bind; [apply pb_skip_no; [discriminate|reflexivity]|]. apply pa_ret.
    - eapply pa_bind; [apply pb_skip; [exact Ku|discriminate]|]. cbn iota. eapply pa_bind; [apply pb_kw; [exact Kg|discriminate]|apply pa_ret]. }
  eapply pa_bind; [apply pb_tok; [ne|reflexivity]|].
  eapply pa_bind; [apply (pb_sep o _ (index_column_is o) _ (fun t => tok_eqb t TComma || tok_eqb t TRParen) cs cl n); [exact Cs|reflexivity| |discriminate|reflexivity|reflexivity|len|rewrite r_n_knot; len]|].
  { intros ts0 a us0 X0 U0 E0 _. apply pb_index_column; [exact X0|exact U0|]. apply orb_prop in E0 as [E0|E0]; destruct (hd_tok us0); try discriminate; auto. }
  eapply pa_bind; [apply pb_tok; [ne|reflexivity]|].
  apply pa_assoc. eapply (pa_bind o _ _ _ _ _ w us); [|apply pa_ret].
  destruct Wh as [|tw sw ts' e D Kw E]; norm.
  - eapply pa_bind; [apply pb_skip_no; [exact U|hd_tac H]|]. apply pa_ret.
  - eapply pa_bind; [apply pb_skip; [exact Kw|ne]|]. cbn iota. eapply pa_bind; [apply pb_expr; [exact E|exact U|hd_tac H|len]|].
    eapply pa_bind; [apply pa_dialect|]. eapply (pa_bind o _ _ _ _ _ tt); [destruct (o_dialect o); [congruence|apply pa_ret..]|apply pa_ret].
Qed.
Lemma pb_type ts x us n : create_type_is o ts x -> heads ends us -> length ts < n -> parses (parse_create (knot n)) (ts ++ us) x us.
Proof.
  intros [hs s l t s1 t1 v s2 t2 s3 t3 s4 p1 ts' x' p2 D C K N K2 K3 Cs] H L. norm. pose proof (heads_ne _ _ H) as U.
  apply (pb_create hs s l); [exact C|eapply heads_kw; [exact K|cbn; tauto]|len|]. words K.
  eapply pa_bind; [apply pb_kw; [exact K|ne]|]. eapply pa_bind; [apply pa_dialect|]. rewrite D. eapply pa_bind; [apply pa_ret|].
  eapply pa_bind; [apply pb_name; [exact N|discriminate]|]. eapply pa_bind; [apply pb_kws2; [exact K2|exact K3|discriminate]|].
  eapply pa_bind; [apply pb_tok; [ne|reflexivity]|].
  eapply pa_bind; [apply (pb_list2 o _ string_is _ ts' x' n); [exact Cs| |exact U|len|rewrite r_n_knot; len]|].
  { intros ts0 a us0 X0 U0 E0 L0. apply pb_string; [exact X0|exact U0|now destruct E0 as [-> | ->]|rewrite r_n_knot; lia]. }
  eapply pa_bind; [apply pb_tok; [exact U|reflexivity]|]. apply pa_ret.
Qed.
Lemma define_head ts x : define_is o ts x -> heads [W "CREATE"] ts.
Proof.
  assert (G : forall hs s l us, create_is o hs s l -> heads [W "CREATE"] (hs ++ us)) by (intros hs s l us [t s' os l' K M]; eapply heads_kw; [exact K|now left]).
  destruct 1 as [ts x X|ts x X|ts x X]; destruct X; eapply G; eassumption.
Qed.
Lemma pb_define ts x us n : define_is o ts x -> heads ends us -> length ts < n -> parses (parse_create (knot n)) (ts ++ us) x us.
Proof. intros [ts' x' X|ts' x' X|ts' x' X]; [now apply pb_view|now apply pb_index|now apply pb_type]. Qed.
End Rules.
