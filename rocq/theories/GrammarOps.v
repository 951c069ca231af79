(** The parser reads what the grammar generates: operands with a syntax of their own, types. *)
From Verif Require Export GrammarProof.
Local Open Scope string_scope.
Local Open Scope list_scope.

Section Operands.
Variable o : reading.
Notation word_tok := (word_tok o). Notation dotted := (dotted o). Notation kw_tok := (kw_tok o). Notation name_tok := (name_tok o).
Notation P_operand := (P_operand o). Notation P_items := (P_items o). Notation P_expr := (P_expr o). Notation P_list := (P_list o).
Notation P_args := (P_args o). Notation P_dtype := (P_dtype o). Notation P_props := (P_props o). Notation P_prop := (P_prop o). Notation P_sorted := (P_sorted o).
Notation parses := (parses o).

Ltac norm := repeat first [rewrite <- app_assoc | progress cbn [app length hd_tok fst snd] in * | rewrite app_length in *].
Ltac ne := repeat first [assumption | discriminate | apply ne_app].
Ltac kws := cbn [fst snd hd_tok is_kw kw_eqb String.eqb Ascii.eqb Bool.eqb tok_eqb tok_tag Nat.eqb andb orb negb].
Ltac op_open := split; [reflexivity|]; split; [reflexivity|]; split; [norm; lia|]; intros n y rest L F; norm; apply pa_wrap; kws.

Lemma follows_string t : follows t = true -> string_token t = None.
Proof. now destruct t. Qed.
Lemma c_string ts x : string_is ts x -> P_operand ts (EString x).
Proof.
  intros H. pose proof (string_len _ _ H) as Lt. destruct (string_hd _ _ H) as (v & E).
  split; [destruct E as [-> | ->]; reflexivity|]. split; [destruct E as [-> | ->]; reflexivity|]. split; [exact Lt|].
  intros n y rest L F. apply pa_wrap.
  assert (X : parses (v <- consume_string (r_n (knot n)) ;; Ret (Some (shift_expr (EString v) []))) (ts ++ y :: rest) (Some (RedOk [MExpr (EString x)])) (y :: rest)).
  { eapply pa_bind; [apply pb_string; [exact H|discriminate|now apply follows_string|rewrite r_n_knot; lia]|apply pa_ret]. }
  destruct E as [-> | ->]; (eapply pa_bind; [apply pa_listhack|]); exact X.
Qed.
Lemma c_arg x s : o_arguments o = ArgDollar -> P_operand [(TDollarArg x, s)] (EArg (mkArg (x - 1)%N s)).
Proof.
  intros E. op_open. eapply pa_bind; [apply pa_listhack|]. eapply pa_bind; [apply pa_arguments|]. rewrite E.
  eapply pa_bind; [apply pa_consume; np|apply pa_ret].
Qed.
Lemma c_placeholder t s : placeholder o t = true -> P_operand [(t, s)] (EArg (mkArg (rd_number o s) s)).
Proof.
  intros Q. assert (C : t = TQuestionMark /\ o_arguments o = ArgQuestionMark \/ t = TPercentS /\ o_arguments o = ArgPercent).
  { unfold placeholder in Q. destruct t; try discriminate Q; destruct (o_arguments o); try discriminate Q; auto. }
  destruct C as [[-> E]|[-> E]]; op_open; (eapply pa_bind; [apply pa_listhack|]); (eapply pa_bind; [apply pa_arguments|]); rewrite E; cbn [andb tok_eqb];
    (eapply pa_bind; [apply (pa_argument o _ (fun n s => shift_expr (EArg (mkArg n s)) [])); [exact Q|reflexivity]|apply pa_ret]).
Qed.
Lemma c_bare k f t s : stands_for functions_without_parentheses k f -> any_case k t -> P_operand [(t, s)] (EFunction (FName f) [] s).
Proof.
  intros I (v & ->). apply bare_row in I.
  assert (K : expr_word k = true).
  { cbn [In bare_functions] in I. repeat (destruct I as [E|I]; [injection E as <- <-; reflexivity|]). destruct I. }
  assert (K' : wordy (KW k)) by (right; right; eauto).
  destruct (wordy_opens v (KW k) K') as [K1 K2].
  split; [exact K2|]. split; [exact K1|]. split; [cbn; lia|]. intros n y rest L F. cbn [hd_tok fst app].
  apply word_operand; [exact K'|]. eapply pa_bind; [apply pa_consume; np|]. eapply pa_bind; [apply pa_token|].
  rewrite (follows_not_lparen _ F), (kw_assoc_in bare_functions v k f) by (auto; vm_compute; reflexivity). apply pa_ret.
Qed.
(** The arguments of a function, up to the closing parenthesis. *)
Lemma pb_args ts l n s us : P_args ts l -> length ts < n -> us <> [] ->
  parses (t1 <- token ;;
          if negb (tok_eqb t1 TRParen) then recovered_list (r_n (knot (S n))) (parse_expression_outer (knot (S n))) else Ret [])
    (ts ++ (TRParen, s) :: us) l ((TRParen, s) :: us).
Proof.
  intros [[-> ->]|H] L N; cbn [app].
  - eapply pa_bind; [apply pa_token|]. kws. apply pa_ret.
  - pose proof H as (H1 & _ & H3 & _). eapply pa_bind; [apply pb_token; ne|]. rewrite hd_app, H3 by exact H1. cbn [negb].
    destruct us as [|y us]; [congruence|]. apply (pa_list o false n ts l s y us H L).
Qed.
Lemma pb_function t f s s1 ts s2 l n us : (forall sp ts, parses (function_of t sp) ts f ts) -> P_args ts l -> length ts < n -> us <> [] ->
  is_kw (hd_tok us) "OVER" = false ->
  parses (parse_function (knot (S n)) t s) ((TLParen, s1) :: ts ++ (TRParen, s2) :: us) (EFunction f l s) us.
Proof.
  intros PF H L N F. unfold parse_function. eapply pa_bind; [apply pb_tok; [ne|reflexivity]|]. eapply pa_bind; [apply PF|].
  apply pa_assoc. eapply pa_bind; [apply pb_args; [exact H|exact L|exact N]|]. eapply pa_bind; [apply pb_tok; [exact N|reflexivity]|].
  eapply pa_bind; [now apply pb_skip_no|apply pa_ret].
Qed.
Lemma c_call t f s s1 ts s2 l : func_tok t f -> P_args ts l -> P_operand ((t, s) :: (TLParen, s1) :: ts ++ [(TRParen, s2)]) (EFunction f l s).
Proof.
  intros W H. destruct (func_facts o _ _ W) as (v & k & -> & K & PF). destruct (wordy_opens v k K) as [K1 K2].
  split; [exact K2|]. split; [exact K1|]. split; [cbn; lia|]. intros n y rest L F. norm.
  destruct n as [|n]; [lia|]. apply word_operand; [exact K|].
  eapply pa_bind; [apply pa_consume; np|]. eapply pa_bind; [apply pa_token|]. kws.
  eapply pa_bind; [|apply pa_ret]. apply pb_function; auto; [lia|discriminate|now apply follows_not_over].
Qed.
Lemma c_left t s s1 ts s2 l : any_case "LEFT" t -> P_args ts l -> P_operand ((t, s) :: (TLParen, s1) :: ts ++ [(TRParen, s2)]) (EFunction (FName "Left") l s).
Proof.
  intros (v & ->) H. op_open. destruct n as [|n]; [lia|]. eapply pa_bind; [apply pa_listhack|]. kws.
  eapply pa_bind; [apply pa_peek|]. kws. eapply pa_bind; [apply pa_consume; np|]. kws. eapply pa_bind; [|apply pa_ret].
  apply pb_function; auto; [intros; apply pa_ret|lia|discriminate|now apply follows_not_over].
Qed.
Lemma pb_sorted ts l n s us : P_sorted ts l -> length ts < n -> us <> [] ->
  parses (parse_order_elements (knot n)) (ts ++ (TRParen, s) :: us) l ((TRParen, s) :: us).
Proof.
  intros H L N. destruct us as [|y us]; [congruence|].
  apply (pa_sep o _ (fun n => sort_elem (knot n)) f_sort ts l n (TRParen, s) (y :: us) (r_n (knot n)) H); auto. rewrite r_n_knot. lia.
Qed.
Lemma c_over t f s s1 ts s2 l t' so s3 t1 b1 t2 b2 os ol s4 : func_tok t f -> P_args ts l -> kw_tok "OVER" t' ->
  kw_tok "ORDER" t1 -> kw_tok "BY" t2 -> P_sorted os ol ->
  P_operand ((t, s) :: (TLParen, s1) :: ts ++ (TRParen, s2) :: (t', so) :: (TLParen, s3) :: (t1, b1) :: (t2, b2) :: os ++ [(TRParen, s4)])
      (EWindowFunction f l s so (join b2 b1, ol)).
Proof.
  intros W H K K3 K4 S. destruct (func_facts o _ _ W) as (v & k & -> & Kf & PF). destruct (wordy_opens v k Kf) as [K1 K2].
  split; [exact K2|]. split; [exact K1|]. split; [cbn; lia|]. intros n y rest L F. norm.
  destruct n as [|n]; [lia|]. apply word_operand; [exact Kf|].
  eapply pa_bind; [apply pa_consume; np|]. eapply pa_bind; [apply pa_token|]. kws.
  eapply pa_bind; [|apply pa_ret]. unfold parse_function. eapply pa_bind; [apply pb_tok; [ne|reflexivity]|]. eapply pa_bind; [apply PF|].
  apply pa_assoc. eapply pa_bind; [apply pb_args; [exact H|lia|discriminate]|]. eapply pa_bind; [apply pb_tok; [discriminate|reflexivity]|].
  eapply pa_bind; [apply pb_skip; [exact K|discriminate]|]. eapply pa_bind; [apply pb_tok; [discriminate|reflexivity]|].
  eapply pa_bind; [apply pb_kws2; [exact K3|exact K4|ne]|]. eapply pa_bind; [apply pb_sorted; [exact S|lia|discriminate]|].
  eapply pa_bind; [apply pb_tok; [discriminate|reflexivity]|apply pa_ret].
Qed.
Lemma pb_outer ts e n y us : P_expr false ts e -> length ts <= n -> stops (fst y) = true ->
  parses (parse_expression_outer (knot (S n))) (ts ++ y :: us) e (y :: us).
Proof. intros H L S. apply (pa_paren_expr o parse_expression_outer ts e n y us H L); [now apply stops_stops_at|auto]. Qed.
Lemma c_aggregate k K t s s1 ds d ts e s2 : In (k, K) [("COUNT", ECount); ("GROUP_CONCAT", EGroupConcat)] -> kw_tok k t -> opt_word o "DISTINCT" ds d ->
  P_expr false ts e -> P_operand ((t, s) :: (TLParen, s1) :: ds ++ ts ++ [(TRParen, s2)]) (K s d e).
Proof.
  intros I Kt D H. pose proof H as (H1 & H2 & _).
  assert (X : forall n y rest, length ((t, s) :: (TLParen, s1) :: ds ++ ts ++ [(TRParen, s2)]) <= n ->
    parses (step_aggregate (knot n) k K []) (((t, s) :: (TLParen, s1) :: ds ++ ts ++ [(TRParen, s2)]) ++ y :: rest) (RedOk [MExpr (K s d e)]) (y :: rest)).
  { intros n y rest L. norm. destruct n as [|n]; [lia|]. eapply pa_bind; [apply pb_kw; [exact Kt|discriminate]|].
    eapply pa_bind; [apply pb_tok; [ne|reflexivity]|]. eapply pa_bind; [apply pb_opt; [exact D|ne|]|].
    { rewrite hd_app by exact H2. apply opens_kw; [exact H1|cbn; tauto]. }
    eapply (pa_bind o _ _ _ _ _ (Some e) ((TRParen, s2) :: y :: rest)).
    { eapply pa_recovered; [|reflexivity]. eapply pa_bind; [apply pb_outer; [exact H|lia|reflexivity]|apply pa_ret]. }
    eapply pa_bind; [apply pb_tok; [discriminate|reflexivity]|apply pa_ret]. }
  pose proof Kt as (v & -> & _).
  destruct I as [E|[E|[]]]; injection E as <- <-; (split; [reflexivity|]; split; [reflexivity|]; split; [cbn; lia|]; intros n y rest L F; cbn [hd_tok fst]; apply pa_wrap; kws;
    eapply pa_bind; [apply pa_listhack|]; kws; eapply pa_bind; [apply X; exact L|apply pa_ret]).
Qed.
Lemma c_cast b t s s1 ts e t' s' ds d s2 : kw_tok "CAST" t -> P_expr false ts e -> kw_tok "AS" t' -> P_dtype false b ds d ->
  P_operand ((t, s) :: (TLParen, s1) :: ts ++ (t', s') :: ds ++ [(TRParen, s2)]) (ECast s e s' d).
Proof.
  intros K H K' (D1 & D2). pose proof K as (v & -> & _). op_open. destruct n as [|n]; [lia|].
  eapply pa_bind; [apply pa_listhack|]. kws. eapply pa_bind; [|apply pa_ret].
  eapply pa_bind; [apply pb_kw; [exact K|discriminate]|]. eapply pa_bind; [apply pb_tok; [ne|reflexivity]|].
  eapply (pa_bind o _ _ _ _ _ (Some (e, s', d)) ((TRParen, s2) :: y :: rest)).
  { eapply pa_recovered; [|reflexivity]. eapply pa_bind; [apply pb_outer; [exact H|lia|now apply (kw_stops o "AS")]|].
    eapply pa_bind; [apply pb_kw; [exact K'|ne]|]. eapply pa_bind; [apply D2; [lia|reflexivity|reflexivity]|apply pa_ret]. }
  eapply pa_bind; [apply pb_tok; [discriminate|reflexivity]|apply pa_ret].
Qed.
Lemma c_extract t s s1 t1 u su t2 s2 ts e s3 : kw_tok "EXTRACT" t -> unit_tok t1 u -> kw_tok "FROM" t2 -> P_expr false ts e ->
  P_operand ((t, s) :: (TLParen, s1) :: (t1, su) :: (t2, s2) :: ts ++ [(TRParen, s3)]) (EExtract s (u, su) s2 e).
Proof.
  intros K U K2 H. pose proof K as (v & -> & _). op_open. destruct n as [|n]; [lia|].
  eapply pa_bind; [apply pa_listhack|]. kws. eapply pa_bind; [|apply pa_ret].
  eapply pa_bind; [apply pb_kw; [exact K|discriminate]|]. eapply pa_bind; [apply pb_tok; [ne|reflexivity]|].
  eapply (pa_bind o _ _ _ _ _ (Some (u, su, s2, e)) ((TRParen, s3) :: y :: rest)).
  { eapply pa_recovered; [|reflexivity]. eapply pa_bind; [apply pb_unit; [exact U|discriminate]|].
    eapply pa_bind; [apply pb_kw; [exact K2|ne]|]. eapply pa_bind; [apply pb_outer; [exact H|lia|reflexivity]|apply pa_ret]. }
  eapply pa_bind; [apply pb_tok; [discriminate|reflexivity]|apply pa_ret].
Qed.
Lemma c_timestamp k K t s s1 t1 u su s2 ts e s3 ts' e' s4 : In (k, K) [("TIMESTAMPADD", ETimestampAdd); ("TIMESTAMPDIFF", ETimestampDiff)] ->
  any_case k t -> unit_tok t1 u -> P_expr false ts e -> P_expr false ts' e' ->
  P_operand ((t, s) :: (TLParen, s1) :: (t1, su) :: (TComma, s2) :: ts ++ (TComma, s3) :: ts' ++ [(TRParen, s4)]) (K s (u, su) e e').
Proof.
  intros I (v & ->) U H H'.
  assert (X : forall w n y rest, length (w :: (TLParen, s1) :: (t1, su) :: (TComma, s2) :: ts ++ (TComma, s3) :: ts' ++ [(TRParen, s4)]) <= n -> snd w = s -> placeholder o (fst w) = false ->
    parses (step_timestamp (knot n) K []) ((w :: (TLParen, s1) :: (t1, su) :: (TComma, s2) :: ts ++ (TComma, s3) :: ts' ++ [(TRParen, s4)]) ++ y :: rest)
      (RedOk [MExpr (K s (u, su) e e')]) (y :: rest)).
  { intros w n y rest L <- Q. norm. destruct n as [|n]; [lia|]. eapply pa_bind; [apply pb_consume; [discriminate|np]|].
    eapply pa_bind; [apply pb_tok; [ne|reflexivity]|].
    eapply (pa_bind o _ _ _ _ _ (Some (u, su, e, e')) ((TRParen, s4) :: y :: rest)).
    { eapply pa_recovered; [|reflexivity]. eapply pa_bind; [apply pb_unit; [exact U|discriminate]|].
      eapply pa_bind; [apply pb_tok; [ne|reflexivity]|]. eapply pa_bind; [apply pb_outer; [exact H|lia|reflexivity]|].
      eapply pa_bind; [apply pb_tok; [ne|reflexivity]|]. eapply pa_bind; [apply pb_outer; [exact H'|lia|reflexivity]|apply pa_ret]. }
    eapply pa_bind; [apply pb_tok; [discriminate|reflexivity]|apply pa_ret]. }
  destruct I as [E|[E|[]]]; injection E as <- <-; (split; [reflexivity|]; split; [reflexivity|]; split; [cbn; lia|]; intros n y rest L F; cbn [hd_tok fst]; apply pa_wrap; kws;
    eapply pa_bind; [apply X; [exact L|reflexivity|reflexivity]|apply pa_ret]).
Qed.
Lemma c_interval t s ts i t' u su : any_case "INTERVAL" t -> interval_is ts i -> unit_tok t' u ->
  P_operand ((t, s) :: ts ++ [(t', su)]) (EInterval s i (u, su)).
Proof.
  intros (v & ->) I U. destruct (unit_ident _ _ U) as (v' & k' & E). op_open.
  eapply pa_bind; [|apply pa_ret]. eapply pa_bind; [apply pb_consume; [ne|np]|]. eapply pa_bind; [apply pb_token; ne|].
  eapply (pa_bind o _ _ _ _ _ i ((t', su) :: y :: rest)); [|eapply pa_bind; [apply pb_unit; [exact U|discriminate]|apply pa_ret]].
  destruct I as [w sw Lw|ts x l S N].
  - cbn [app hd_tok fst]. eapply pa_bind; [apply pb_int; [unfold i64_max; lia|discriminate]|]. apply pa_ret.
  - assert (X : parses (v <- consume_string (r_n (knot n)) ;;
            l <- interval_parts (ss_span v) (split_on is_interval_sep (ss_value v)) ;;
            Ret (l, ss_span v)) (ts ++ (t', su) :: y :: rest) (l, ss_span x) ((t', su) :: y :: rest)).
    { eapply pa_bind; [apply pb_string; [exact S|discriminate|rewrite E; reflexivity|rewrite r_n_knot; lia]|].
      eapply pa_bind; [apply pb_parts; exact N|apply pa_ret]. }
    pose proof (string_len _ _ S) as Ls. rewrite hd_app by exact Ls. destruct (string_hd _ _ S) as (w & [-> | ->]); exact X.
Qed.
Lemma c_variable g ss d t v sv : (g = None <-> ss <> None) -> variable_tok t v ->
  P_operand [(match g with Some s => (TAtAtGlobal, s) | None => (TAtAtSession, match ss with Some s => s | None => (0, 0) end) end); (TPeriod, d); (t, sv)]
    (EVariable g ss (Some d) v sv).
Proof.
  intros G (w & k & -> & V).
  assert (X : forall y rest, parses (step_variable []) ((match g with Some s => (TAtAtGlobal, s) | None => (TAtAtSession, match ss with Some s => s | None => (0, 0) end) end) :: (TPeriod, d) :: (TIdent w k, sv) :: y :: rest)
    (RedOk [MExpr (EVariable g ss (Some d) v sv)]) (y :: rest)).
  { intros y rest. unfold step_variable.
    assert (Y : parses (dot <- consume_token TPeriod ;;
      t <- token ;;
      v <- (if is_kw t "TIME_ZONE" then Ret VTimeZone else match t with TIdent v _ => Ret (VOther v) | _ => expected_failure "Identifier" end) ;;
      vs <- consume ;;
      Ret (shift_expr (EVariable g ss (Some dot) v vs) [])) ((TPeriod, d) :: (TIdent w k, sv) :: y :: rest) (RedOk [MExpr (EVariable g ss (Some d) v sv)]) (y :: rest)).
    { eapply pa_bind; [apply pb_tok; [discriminate|reflexivity]|]. eapply pa_bind; [apply pa_token|]. cbn [fst].
      eapply (pa_bind o _ _ _ _ _ v ((TIdent w k, sv) :: y :: rest)); [|eapply pa_bind; [apply pa_consume; np|apply pa_ret]].
      destruct V as [[-> ->]|[N ->]]; [apply pa_ret|]. replace (is_kw (TIdent w k) "TIME_ZONE") with false; [apply pa_ret|].
      symmetry. destruct k as [| |k]; try reflexivity. cbn [is_kw kw_eqb]. destruct (String.eqb_spec k "TIME_ZONE") as [->|]; [congruence|reflexivity]. }
    destruct g as [g|].
    - destruct ss as [ss|]; [exfalso; assert (Q : Some g = None) by (apply G; discriminate); discriminate Q|]. eapply pa_bind; [apply pb_skip_tok; [discriminate|reflexivity]|].
      eapply pa_bind; [apply pa_ret|]. exact Y.
    - destruct ss as [ss|]; [|exfalso; destruct G as [G _]; now apply G]. eapply pa_bind; [apply pb_skip_tok_no; [discriminate|reflexivity]|].
      eapply pa_bind; [eapply pa_bind; [apply pb_tok; [discriminate|reflexivity]|apply pa_ret]|]. exact Y. }
  destruct g as [g|]; (split; [reflexivity|]; split; [reflexivity|]; split; [cbn; lia|]; intros n y rest L F; cbn [hd_tok fst app]; apply pa_wrap; kws;
    eapply pa_bind; [apply pa_listhack|]; kws; eapply pa_bind; [apply pa_arguments|]; kws; eapply pa_bind; [apply X|apply pa_ret]).
Qed.
Lemma c_global s d t v sv : variable_tok t v -> P_operand [(TAtAtGlobal, s); (TPeriod, d); (t, sv)] (EVariable (Some s) None (Some d) v sv).
Proof. intros V. apply (c_variable (Some s) None d t v sv); [|exact V]. split; [discriminate|congruence]. Qed.
Lemma c_session s d t v sv : variable_tok t v -> P_operand [(TAtAtSession, s); (TPeriod, d); (t, sv)] (EVariable None (Some s) (Some d) v sv).
Proof. intros V. apply (c_variable None (Some s) d t v sv); [|exact V]. split; [discriminate|reflexivity]. Qed.

(** ** Types *)
Lemma pb_paren_expr ts e n s1 s2 us : P_expr false ts e -> length ts < n -> us <> [] ->
  parses (paren_expr (knot n)) ((TLParen, s1) :: ts ++ (TRParen, s2) :: us) e us.
Proof.
  intros H L N. destruct n as [|n]; [lia|]. unfold paren_expr. eapply pa_bind; [apply pb_tok; [ne|reflexivity]|].
  eapply (pa_bind o _ _ _ _ _ (Some e) ((TRParen, s2) :: us)).
  { eapply pa_recovered; [|reflexivity]. eapply pa_bind; [apply (pa_r_expr o false ts e n (TRParen, s2)); [exact H|lia|reflexivity]|apply pa_ret]. }
  eapply pa_bind; [apply pb_tok; [exact N|reflexivity]|apply pa_ret].
Qed.
Ltac prop_open K := pose proof K as (?v & -> & _); split; [norm; lia|]; split; [reflexivity|]; intros n y rest L Fs Fk Fb; norm;
  unfold parse_property; (eapply pa_bind; [apply pa_token|]); (eapply pa_bind; [apply pa_dialect|]); cbn [kw_assoc tag_properties]; kws.
Lemma c_pr_word no_as k c t s : In (k, c) word_properties -> kw_tok k t -> P_prop no_as false [(t, s)] (DPTag (mkTag c s)).
Proof.
  intros I K. pose proof K as (v & -> & _). split; [cbn; lia|]. split.
  { cbn [In word_properties] in I. repeat (destruct I as [E|I]; [injection E as <- <-; reflexivity|]). destruct I. }
  intros n y rest L Fs Fk Fb. cbn [app]. unfold parse_property. eapply pa_bind; [apply pa_token|]. eapply pa_bind; [apply pa_dialect|]. cbn [fst].
  rewrite (kw_assoc_in tag_properties v k c) by (auto; vm_compute; reflexivity).
  eapply pa_bind; [apply pb_kw; [exact K|discriminate]|apply pa_ret].
Qed.
Lemma c_pr_not_null no_as t s t' s' : kw_tok "NOT" t -> kw_tok "NULL" t' ->
    P_prop no_as false [(t, s); (t', s')] (DPTag (mkTag "NotNull" (sp_start s, sp_end s'))).
Proof. intros K K'. prop_open K. eapply pa_bind; [apply pb_kw; [exact K|discriminate]|]. eapply pa_bind; [apply pb_kw; [exact K'|discriminate]|apply pa_ret]. Qed.
Lemma c_pr_charset no_as t s t' s' t2 v s2 : kw_tok "CHARACTER" t -> kw_tok "SET" t' -> name_tok t2 v ->
    P_prop no_as false [(t, s); (t', s'); (t2, s2)] (DPCharset (mkIdent v s2)).
Proof.
  intros K K' N. prop_open K. eapply pa_bind; [apply pb_kws2; [exact K|exact K'|discriminate]|].
  eapply pa_bind; [apply pb_name; [exact N|discriminate]|apply pa_ret].
Qed.
Lemma c_pr_collate no_as t s t2 v s2 : kw_tok "COLLATE" t -> name_tok t2 v -> P_prop no_as false [(t, s); (t2, s2)] (DPCharset (mkIdent v s2)).
Proof.
  intros K N. prop_open K. eapply pa_bind; [apply pb_kw; [exact K|discriminate]|].
  eapply pa_bind; [apply pb_name; [exact N|discriminate]|apply pa_ret].
Qed.
Lemma c_pr_comment no_as t s ts x : kw_tok "COMMENT" t -> string_is ts x -> P_prop no_as false ((t, s) :: ts) (DPComment x).
Proof.
  intros K S. prop_open K. eapply pa_bind; [apply pb_kw; [exact K|ne]|].
  eapply pa_bind; [apply pb_string; [exact S|discriminate|exact Fs|rewrite r_n_knot; lia]|apply pa_ret].
Qed.
Lemma c_pr_default no_as t s ts e : kw_tok "DEFAULT" t -> P_expr true ts e -> P_prop no_as true ((t, s) :: ts) (DPDefault e).
Proof.
  intros K H. prop_open K. destruct n as [|n]; [lia|]. eapply pa_bind; [apply pb_kw; [exact K|ne]|].
  eapply pa_bind; [apply (pa_r_inner o true ts e n y rest H); [lia|now apply Fb]|apply pa_ret].
Qed.
Lemma c_pr_unique no_as t s : kw_tok "UNIQUE" t -> P_prop no_as false [(t, s)] (DPTag (mkTag "Unique" s)).
Proof.
  intros K. prop_open K. eapply pa_bind; [apply pb_kw; [exact K|discriminate]|].
  eapply pa_bind; [apply pb_skip_no; [discriminate|exact Fk]|apply pa_ret].
Qed.
Lemma c_pr_unique_key no_as t s t' s' : kw_tok "UNIQUE" t -> kw_tok "KEY" t' -> P_prop no_as false [(t, s); (t', s')] (DPTag (mkTag "UniqueKey" (join s' s))).
Proof.
  intros K K'. prop_open K. eapply pa_bind; [apply pb_kw; [exact K|discriminate]|].
  eapply pa_bind; [apply pb_skip; [exact K'|discriminate]|apply pa_ret].
Qed.
Lemma c_pr_generated no_as t s t' s' : o_dialect o <> PostgreSQL -> kw_tok "GENERATED" t -> kw_tok "ALWAYS" t' ->
    P_prop no_as false [(t, s); (t', s')] (DPTag (mkTag "GeneratedAlways" (join s' s))).
Proof.
  intros D K K'. prop_open K. eapply pa_bind; [|apply pa_ret].
  destruct (o_dialect o); try congruence; cbn [is_postgresql]; (apply pb_kws2; [exact K|exact K'|discriminate]).
Qed.
Lemma c_pr_identity no_as t s t' s' t2 s2 t3 s3 : o_dialect o = PostgreSQL -> kw_tok "GENERATED" t -> kw_tok "ALWAYS" t' -> kw_tok "AS" t2 -> kw_tok "IDENTITY" t3 ->
    P_prop no_as false [(t, s); (t', s'); (t2, s2); (t3, s3)] (DPTag (mkTag "GeneratedAlways" (join s3 (join s2 (join s' s))))).
Proof.
  intros D K K1 K2 K3. prop_open K. eapply pa_bind; [|apply pa_ret]. rewrite D. cbn [is_postgresql].
  apply pb_kws4; [exact K|exact K1|exact K2|exact K3|discriminate].
Qed.
Lemma c_pr_as t s s1 ts s2 e : kw_tok "AS" t -> P_expr false ts e -> P_prop false false ((t, s) :: (TLParen, s1) :: ts ++ [(TRParen, s2)]) (DPAs s e).
Proof.
  intros K H. prop_open K. eapply pa_bind; [apply pb_kw; [exact K|ne]|].
  eapply pa_bind; [apply pb_paren_expr; [exact H|lia|discriminate]|apply pa_ret].
Qed.
Lemma c_pr_primary no_as t s t' s' : kw_tok "PRIMARY" t -> kw_tok "KEY" t' -> P_prop no_as false [(t, s); (t', s')] (DPTag (mkTag "PrimaryKey" (join s' s))).
Proof. intros K K'. prop_open K. eapply pa_bind; [apply pb_kws2; [exact K|exact K'|discriminate]|apply pa_ret]. Qed.
Lemma c_pr_check no_as t s s1 ts s2 e : kw_tok "CHECK" t -> P_expr false ts e ->
    P_prop no_as false ((t, s) :: (TLParen, s1) :: ts ++ [(TRParen, s2)]) (DPCheck s e).
Proof.
  intros K H. prop_open K. eapply pa_bind; [apply pb_kw; [exact K|ne]|].
  eapply pa_bind; [apply pb_paren_expr; [exact H|lia|discriminate]|apply pa_ret].
Qed.
(** Lists of properties. *)
Lemma prop_word_facts no_as t : existsb (is_kw t) (prop_words no_as) = true -> exists v k, t = TIdent v (KW k) /\ In k (prop_words false).
Proof.
  intros H. apply existsb_exists in H as (k & I & E). destruct t; try discriminate. destruct k0 as [| |k0]; try discriminate. apply String.eqb_eq in E as ->.
  exists t, k. split; [reflexivity|]. destruct no_as; [|exact I]. unfold prop_words in *. rewrite !in_app_iff in *. cbn [In] in *. tauto.
Qed.
Lemma prop_word_next no_as t : existsb (is_kw t) (prop_words no_as) = true -> string_token t = None /\ is_kw t "KEY" = false /\ tok_eqb t TLParen = false /\ is_kw t "WITH" = false.
Proof.
  intros H. apply prop_word_facts in H as (v & k & -> & I). cbn [In prop_words app map fst word_properties] in I.
  repeat (destruct I as [<-|I]; [repeat split; reflexivity|]). destruct I.
Qed.
Lemma type_end_facts no_as t : type_end no_as t = true ->
  string_token t = None /\ is_kw t "KEY" = false /\ tok_eqb t TLParen = false /\ is_kw t "WITH" = false /\ existsb (is_kw t) (prop_words no_as) = false.
Proof.
  unfold type_end. intros H. repeat (match type of H with _ && _ = true => let X := fresh "X" in apply andb_prop in H as [H X]; apply negb_true_iff in X end).
  apply negb_true_iff in H. repeat split; auto. destruct (string_token t); [discriminate|reflexivity].
Qed.
Lemma default_stops t s rest : existsb (is_kw t) after_default = true -> stops_in true (t, s) rest = true.
Proof.
  intros H. apply existsb_exists in H as (k & I & E). destruct t; try discriminate. destruct k0 as [| |k0]; try discriminate. apply String.eqb_eq in E as ->.
  cbn [In after_default] in I. repeat (destruct I as [<-|I]; [reflexivity|]). destruct I.
Qed.
Lemma pa_no_prop r no_as y rest : type_end no_as (fst y) = true -> parses (parse_property r no_as) (y :: rest) None (y :: rest).
Proof.
  intros H. destruct (type_end_facts _ _ H) as (_ & _ & _ & _ & P). unfold prop_words in P. rewrite !existsb_app in P.
  apply orb_false_elim in P as [P1 P2]. apply orb_false_elim in P2 as [P2 P3]. cbn [existsb] in P2.
  repeat (match type of P2 with _ || _ = false => let X := fresh "X" in apply orb_false_elim in P2 as [X P2] end).
  unfold parse_property. eapply pa_bind; [apply pa_token|]. eapply pa_bind; [apply pa_dialect|].
  rewrite (not_kw_assoc tag_properties) by exact P1. rewrite X, X0, X1, X2, X3, X4, X5, X6, X7.
  assert (Z : is_kw (fst y) "AS" && negb no_as = false) by (destruct no_as; [apply andb_false_r|]; cbn [existsb] in P3; now rewrite orb_false_r in P3; rewrite P3).
  rewrite Z. apply pa_ret.
Qed.
Lemma c_pp_nil no_as : P_props no_as false [] [].
Proof.
  split; [now left|]. split; [congruence|]. split; [cbn; lia|]. intros n m acc y rest L1 L2 F Fb. destruct m as [|m]; [cbn in L2; lia|]. cbn [loop app].
  rewrite app_nil_r. eapply (pa_bind o _ _ _ _ _ (inr acc) (y :: rest)); [|apply pa_ret].
  eapply pa_bind; [apply pa_no_prop; exact F|apply pa_ret].
Qed.
Lemma c_pp_last no_as b ts p : P_prop no_as b ts p -> P_props no_as b ts [p].
Proof.
  intros (H1 & H2 & H3). split; [now right|]. split; [auto|]. split; [cbn; lia|]. intros n m acc y rest L1 L2 F Fb. cbn [length] in L2.
  destruct m as [|[|m]]; [lia|lia|]. cbn [loop]. destruct (type_end_facts _ _ F) as (F1 & F2 & _).
  eapply (pa_bind o _ _ _ _ _ (inl (acc ++ [p])) (y :: rest)).
  - eapply pa_bind; [apply H3; auto|apply pa_ret].
  - cbn iota. eapply (pa_bind o _ _ _ _ _ (inr (acc ++ [p])) (y :: rest)); [|apply pa_ret].
    eapply pa_bind; [apply pa_no_prop; exact F|apply pa_ret].
Qed.
Lemma c_pp_more no_as b ts p b' ts' l : P_prop no_as b ts p -> P_props no_as b' ts' l -> l <> [] ->
    (b = true -> existsb (is_kw (hd_tok ts')) after_default = true) -> P_props no_as b' (ts ++ ts') (p :: l).
Proof.
  intros (H1 & H2 & H3) (I1 & I2 & I3 & I4) Nl Fd. specialize (I2 Nl). unfold GrammarProof.P_props. rewrite app_length. split; [right; now rewrite hd_app|].
  split; [intros _; lia|]. split; [cbn [length]; lia|]. intros n m acc y rest L1 L2 F Fb. cbn [length] in L2. destruct m as [|m]; [lia|]. cbn [loop].
  rewrite <- app_assoc. destruct (cons_len ts' I2) as ([t s] & zs & -> & Hz). destruct I1 as [?|I1]; [discriminate|]. rewrite Hz in I1, Fd.
  destruct (prop_word_next _ _ I1) as (F1 & F2 & _).
  eapply (pa_bind o _ _ _ _ _ (inl (acc ++ [p])) (((t, s) :: zs) ++ y :: rest)).
  - eapply pa_bind; [apply H3; [lia|exact F1|exact F2|intros E; apply default_stops; auto]|apply pa_ret].
  - cbn iota. replace (acc ++ p :: l) with ((acc ++ [p]) ++ l) by now rewrite <- app_assoc. apply I4; auto; lia.
Qed.
Lemma c_dtype no_as b ts s ty ps l : basic_is o ts s ty -> P_props no_as b ps l -> P_dtype no_as b (ts ++ ps) (mkDataType s ty l).
Proof.
  intros B (I1 & I2 & I3 & I4). pose proof (basic_len o _ _ _ B) as Lb. unfold GrammarProof.P_dtype. rewrite app_length. split; [lia|].
  intros n y rest L F Fb. rewrite <- app_assoc. unfold parse_data_type.
  assert (X : tok_eqb (hd_tok (ps ++ y :: rest)) TLParen = false /\ is_kw (hd_tok (ps ++ y :: rest)) "WITH" = false).
  { destruct (type_end_facts _ _ F) as (_ & _ & F3 & F4 & _). destruct I1 as [-> |I1]; [now split|]. destruct (prop_word_next _ _ I1) as (_ & _ & G1 & G2).
    destruct ps as [|z zs]; [now split|]. now split. }
  eapply pa_bind; [apply pb_basic; [exact B|ne|apply X|apply X|rewrite r_n_knot; lia]|]. cbn iota.
  eapply pa_bind; [apply (I4 n (r_n (knot n)) [] y rest); [lia|rewrite r_n_knot; lia|exact F|exact Fb]|apply pa_ret].
Qed.
End Operands.
