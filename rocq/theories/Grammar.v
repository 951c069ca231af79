(** The parser reads what the grammar of [GrammarSpec.v] generates. *)
From Verif Require Export TokRules PropsExpr.
Local Open Scope string_scope.
Local Open Scope list_scope.

Section Grammar.
Variable o : reading.
Notation operand_is := (operand_is o). Notation value_is := (value_is o). Notation whens_are := (whens_are o). Notation else_is := (else_is o).
Notation items_are := (items_are o). Notation expr_is := (expr_is o). Notation list_is := (list_is o).
Notation selected_is := (selected_is o). Notation selection_is := (selection_is o). Notation table_is := (table_is o). Notation on_is := (on_is o).
Notation tables_are := (tables_are o). Notation from_is := (from_is o). Notation cond_is := (cond_is o). Notation exprs_are := (exprs_are o).
Notation group_is := (group_is o). Notation sorted_are := (sorted_are o). Notation order_is := (order_is o). Notation limit_is := (limit_is o).
Notation select_is := (select_is o). Notation bottom_is := (bottom_is o). Notation unions_are := (unions_are o). Notation query_is := (query_is o).
Notation word_tok := (word_tok o). Notation dotted := (dotted o). Notation kw_tok := (kw_tok o). Notation name_tok := (name_tok o).

(** ** Tokens after which an expression ends *)
Definition stop_words : list string :=
  ["FROM"; "WHERE"; "GROUP"; "HAVING"; "ORDER"; "LIMIT"; "FOR"; "AS"; "UNION"; "ASC"; "DESC"; "OFFSET"; "WINDOW";
   "THEN"; "WHEN"; "ELSE"; "ELSEIF"; "END"; "ON"; "USING"; "INNER"; "CROSS"; "JOIN"; "SET"; "RETURNING"; "STRAIGHT_JOIN"; "NATURAL";
   "CHARACTER"; "COMMENT"; "DEFAULT"; "UNIQUE"; "PRIMARY"; "CHECK"; "UNSIGNED"; "ZEROFILL"; "READS"; "MODIFIES"; "SQL"; "DETERMINISTIC"; "CASCADE"].
Definition stops (t : tok) : bool :=
  match t with
  | TEof | TSemiColon | TDoubleDollar | TComma | TRParen => true
  | TIdent _ (KW k) => existsb (String.eqb k) stop_words
  | _ => false
  end.
(** LEFT also ends an expression if it is not a function. *)
Definition stops_at (y : tok * span) (rest : tks) : bool :=
  stops (fst y) || (is_kw (fst y) "LEFT" && match rest with z :: _ => negb (tok_eqb (fst z) TLParen) | [] => false end).
(** A restricted expression also ends at NOT and COLLATE. *)
Definition stops_in (inner : bool) (y : tok * span) (rest : tks) : bool :=
  stops_at y rest || (inner && (is_kw (fst y) "NOT" || is_kw (fst y) "COLLATE")).
Lemma stops_at_in inner y rest : stops_at y rest = true -> stops_in inner y rest = true.
Proof. unfold stops_in. now intros ->. Qed.
(** Tokens that may follow an operand. *)
Definition follows (t : tok) : bool :=
  match t with
  | TLParen | TPeriod | TSingleQuotedString _ | TDoubleQuotedString _ => false
  | TIdent _ (KW k) => negb (String.eqb k "OVER")
  | TIdent _ _ => false
  | _ => true
  end.
Lemma stop_word k : existsb (String.eqb k) stop_words = true -> In k stop_words.
Proof. intros H. apply existsb_exists in H as (x & I & E). apply String.eqb_eq in E. now subst x. Qed.
Ltac each I := repeat (destruct I as [<-|I]); [..|destruct I].
Lemma stops_at_follows y rest : stops_at y rest = true -> follows (fst y) = true.
Proof.
  destruct y as [t s]. unfold stops_at. cbn [fst]. destruct t; try discriminate; auto. destruct k as [| |k]; try discriminate. cbn [stops is_kw kw_eqb follows].
  destruct (existsb _ _) eqn:E; cbn [orb].
  - intros _. apply stop_word in E. cbn [In stop_words] in E. each E; reflexivity.
  - destruct (String.eqb_spec k "LEFT") as [->|]; [reflexivity|discriminate].
Qed.
Lemma in_words t : is_kw t "NOT" || is_kw t "COLLATE" = true -> exists v k, t = TIdent v (KW k) /\ (k = "NOT" \/ k = "COLLATE").
Proof.
  destruct t; try discriminate. destruct k as [| |k]; try discriminate. cbn [is_kw kw_eqb]. intros H. exists t, k. split; [reflexivity|].
  apply orb_prop in H as [H|H]; apply String.eqb_eq in H; auto.
Qed.
Lemma stops_in_follows inner y rest : stops_in inner y rest = true -> follows (fst y) = true.
Proof.
  unfold stops_in. intros H. apply orb_prop in H as [H|H]; [now apply (stops_at_follows y rest)|]. apply andb_prop in H as [_ H].
  apply in_words in H as (v & k & -> & [-> | ->]); reflexivity.
Qed.
Lemma binary_follows t op : operator_of true t = Some op -> follows t = true.
Proof.
  destruct t; try discriminate; auto. destruct k as [| |k]; try discriminate. cbn [operator_of follows]. intros H.
  destruct (String.eqb_spec k "OVER") as [->|]; [discriminate|reflexivity].
Qed.
(** The first token of an expression is not one of these. *)
Definition not_first : list string := "SELECT" :: "WHEN" :: map fst select_flags.
Definition opens (t : tok) : bool :=
  match t with TRParen => false | TIdent _ (KW k) => negb (existsb (String.eqb k) not_first) | _ => true end.
Lemma opens_kw t k : opens t = true -> In k not_first -> is_kw t k = false.
Proof.
  destruct t; try reflexivity. destruct k0 as [| |w]; try reflexivity. cbn [opens is_kw kw_eqb]. intros H I.
  destruct (String.eqb_spec w k) as [->|]; [|reflexivity]. apply negb_true_iff in H. rewrite <- H. symmetry. apply existsb_exists. exists k. split; [exact I|apply String.eqb_refl].
Qed.
Lemma opens_select t : opens t = true -> is_kw t "SELECT" = false.
Proof. intros H. apply opens_kw; [exact H|now left]. Qed.
Lemma opens_rparen t : opens t = true -> tok_eqb t TRParen = false.
Proof. now destruct t. Qed.
Lemma not_select t top op : operator_of top t = Some op -> opens t = true.
Proof.
  destruct t; try reflexivity; try discriminate. destruct k as [| |k]; try reflexivity. cbn [operator_of opens]. intros H.
  apply negb_true_iff. destruct (existsb _ _) eqn:E; [|reflexivity]. apply existsb_exists in E as (x & I & E). apply String.eqb_eq in E. subst x.
  cbn [In not_first select_flags map fst] in I. each I; discriminate H.
Qed.
Lemma special_not k s : is_special k = false -> In s special_words -> String.eqb k s = false.
Proof.
  intros H I. destruct (String.eqb_spec k s) as [->|]; [|reflexivity]. rewrite <- H. symmetry. apply existsb_exists. exists s. split; [exact I|apply String.eqb_refl].
Qed.
Lemma expr_word_opens k v : expr_word k = true -> opens (TIdent v (KW k)) = true /\ operator_of false (TIdent v (KW k)) = None.
Proof.
  unfold expr_word. intros H. apply andb_prop in H as [_ H]. apply negb_true_iff in H. split.
  - cbn [opens]. apply negb_true_iff. destruct (existsb _ _) eqn:E; [|reflexivity]. apply existsb_exists in E as (x & I & E). apply String.eqb_eq in E. subst x.
    cbn [In not_first select_flags map fst] in I. each I; discriminate H.
  - cbn [operator_of]. rewrite !(special_not k _ H) by (cbn; tauto). reflexivity.
Qed.

Lemma pa_id_parts ts ps : dotted ts ps -> forall m acc y rest, follows (fst y) = true -> length ps < m ->
  parses o (loop m (fun parts : list idpart =>
    p <- skip_token TPeriod ;;
    match p with
    | None => Ret (inr parts)
    | Some _ =>
        t <- token ;;
        if tok_eqb t TMul then s <- consume_token TMul ;; Ret (inl (parts ++ [PStar s]))
        else match t with
             | TIdent _ _ => i <- consume_plain_identifier ;; Ret (inl (parts ++ [PName i]))
             | _ => expected_failure "Identifier or '*'"
             end
    end) acc) (ts ++ y :: rest) (acc ++ ps) (y :: rest).
Proof.
  induction 1 as [|s1 t v s2 ts ps N Q D IH|s1 s2 ts ps D IH]; intros m acc y rest F L; (destruct m as [|m]; [lia|]); cbn [loop app length] in *.
  - rewrite app_nil_r. eapply pa_bind; [eapply pa_bind; [apply pa_skip_token_no|apply pa_ret]|apply pa_ret].
    destruct y as [[] ?]; try reflexivity; discriminate.
  - destruct (ts ++ y :: rest) as [|z zs] eqn:Z; [destruct ts; discriminate|].
    eapply pa_bind.
    + eapply pa_bind; [now apply pa_skip_token|]. eapply pa_bind; [apply pa_token|]. cbn [fst].
      assert (X : exists v k, t = TIdent v k). { destruct N as [(k & -> & _)|[[-> _]|[-> _]]]; eauto. now destruct (Q v). }
      destruct X as (v' & k & ->). cbn [tok_eqb]. eapply pa_bind; [eapply pa_name; exact N|]. apply pa_ret.
    + cbn beta iota. rewrite <- Z. replace (acc ++ PName _ :: ps) with ((acc ++ [PName (mkIdent v s2)]) ++ ps) by now rewrite <- app_assoc.
      apply IH; [exact F|lia].
  - destruct (ts ++ y :: rest) as [|z zs] eqn:Z; [destruct ts; discriminate|].
    eapply pa_bind.
    + eapply pa_bind; [now apply pa_skip_token|]. eapply pa_bind; [apply pa_token|]. cbn [fst].
      cbn [tok_eqb]. eapply pa_bind; [now apply pa_consume_token|]. apply pa_ret.
    + cbn beta iota. rewrite <- Z. replace (acc ++ PStar _ :: ps) with ((acc ++ [PStar s2]) ++ ps) by now rewrite <- app_assoc.
      apply IH; [exact F|lia].
Qed.
Lemma dotted_length ts ps : dotted ts ps -> length ps <= length ts.
Proof. induction 1; cbn; lia. Qed.
Lemma r_n_knot n : r_n (knot n) = S n.
Proof. destruct n; reflexivity. Qed.


(** ** What has to be proved of each kind of phrase *)
Definition P_operand (ts : tks) (e : expr) : Prop :=
  operator_of false (hd_tok ts) = None /\ opens (hd_tok ts) = true /\ 0 < length ts /\
  forall n y rest, length ts <= n -> follows (fst y) = true ->
    parses o (operand (knot n) (hd_tok ts) false) (ts ++ y :: rest) (Some e) (y :: rest).
Definition P_items (inner top : bool) (ts : tks) (l : list item) : Prop :=
  (top = true -> ts = [] \/ follows (hd_tok ts) = true) /\
  (top = false -> 0 < length ts /\ opens (hd_tok ts) = true) /\
  length l <= length ts /\
  forall n y rest st, length ts <= n -> stops_in inner y rest = true -> before o st (ts ++ y :: rest) -> s_opts st = o ->
    exists st', reads (knot n) inner top st l st' /\ before o st' (y :: rest) /\ same st st'.
Definition P_expr (inner : bool) (ts : tks) (e : expr) : Prop :=
  opens (hd_tok ts) = true /\ 0 < length ts /\
  forall n y rest, length ts <= n -> stops_in inner y rest = true ->
    parses o (parse_expression (knot n) inner) (ts ++ y :: rest) e (y :: rest).
Definition list_body (p : prog expr) := (fun l : list expr =>
            a <- recovered None "')' or ','" rparen_or_comma (a <- p ;; Ret (Some a)) ;;
            let l := match a with Some a => l ++ [a] | None => l end in
            c <- skip_token TComma ;;
            match c with Some _ => Ret (inl l) | None => Ret (inr l) end).
Definition list_elem (b : bool) (n : nat) : prog expr := if b then parse_expression_paren (knot (S n)) else parse_expression_outer (knot (S n)).
Definition P_list (b : bool) (ts : tks) (l : list expr) : Prop :=
  0 < length ts /\ length l <= length ts /\ tok_eqb (hd_tok ts) TRParen = false /\
  forall n m acc s rest, length ts < n -> length l <= m ->
    parses o (loop m (list_body (list_elem b n)) acc) (ts ++ (TRParen, s) :: rest) (acc ++ l) ((TRParen, s) :: rest).
(** A list of things, each read by [p], read up to tokens accepted by [f]. *)
Definition P_sep {A} (p : nat -> prog A) (f : tok * span -> tks -> bool) (ts : tks) (l : list A) : Prop :=
  0 < length ts /\ length l <= length ts /\
  forall n m acc y rest, length ts < n -> length l <= m -> f y rest = true -> tok_eqb (fst y) TComma = false ->
    parses o (loop m (sep_body (p n)) acc) (ts ++ y :: rest) (acc ++ l) (y :: rest).
Definition P_one {A} (p : nat -> prog A) (f : tok * span -> tks -> bool) (ts : tks) (a : A) : Prop :=
  0 < length ts /\
  forall n y rest, length ts < n -> f y rest = true -> parses o (p n) (ts ++ y :: rest) a (y :: rest).

(** ** Rules *)
Lemma hd_app ts us : 0 < length ts -> hd_tok (ts ++ us) = hd_tok ts.
Proof. destruct ts; cbn; [lia|reflexivity]. Qed.
Lemma cons_app (ts : tks) y rest : exists z zs, ts ++ y :: rest = z :: zs.
Proof. destruct ts; cbn; eauto. Qed.
Lemma cons_len (ts : tks) : 0 < length ts -> exists z zs, ts = z :: zs /\ hd_tok ts = fst z.
Proof. destruct ts; cbn; [lia|eauto]. Qed.
Lemma stops_stops_at y rest : stops (fst y) = true -> stops_at y rest = true.
Proof. unfold stops_at. now intros ->. Qed.
Lemma pa_r_expr inner ts e n y rest : P_expr inner ts e -> length ts <= n -> stops_at y rest = true ->
  parses o (r_expr (knot (S n)) inner) (ts ++ y :: rest) e (y :: rest).
Proof. intros (_ & _ & H) L S. exact (H n y rest L (stops_at_in _ _ _ S)). Qed.
Lemma pa_r_inner inner ts e n y rest : P_expr inner ts e -> length ts <= n -> stops_in inner y rest = true ->
  parses o (r_expr (knot (S n)) inner) (ts ++ y :: rest) e (y :: rest).
Proof. intros (_ & _ & H) L S. exact (H n y rest L S). Qed.
Lemma pa_paren_expr (p : recs -> prog expr) ts e n y rest : P_expr false ts e -> length ts <= n -> stops_at y rest = true ->
  p = parse_expression_outer \/ p = parse_expression_paren ->
  parses o (p (knot (S n))) (ts ++ y :: rest) e (y :: rest).
Proof.
  intros H L S D. pose proof H as (H1 & H2 & _). destruct (cons_len ts H2) as (z & zs & -> & Hz). rewrite Hz in H1.
  pose proof (pa_r_expr false _ e n y rest H L S) as X.
  destruct D as [-> | ->]; cbn [app]; (eapply pa_bind; [apply pa_token|]); rewrite (opens_select _ H1); exact X.
Qed.
Lemma pa_wrap (p : prog (option rres)) ts e ts' : parses o p ts (Some (RedOk [MExpr e])) ts' ->
  parses o (x <- p ;; Ret match x with Some (RedOk [MExpr e]) => Some e | _ => None end) ts (Some e) ts'.
Proof. intros H. eapply pa_bind; [exact H|]. apply pa_ret. Qed.
(** Words go to [step_word]. *)
Definition wordy (k : kw) : Prop := k = NOT_A_KEYWORD \/ k = QUOTED_IDENTIFIER \/ exists w, k = KW w /\ expr_word w = true.
Lemma wordy_opens v k : wordy k -> opens (TIdent v k) = true /\ operator_of false (TIdent v k) = None.
Proof. intros [->|[->|(w & -> & H)]]; [now split|now split|now apply expr_word_opens]. Qed.
Lemma word_operand v k n ts e rest : wordy k ->
  parses o (step_word (knot n) (TIdent v k) []) ts (RedOk [MExpr e]) rest ->
  parses o (operand (knot n) (TIdent v k) false) ts (Some e) rest.
Proof.
  intros W H. apply pa_wrap.
  assert (X : parses o (step_tail (knot n) (TIdent v k) []) ts (Some (RedOk [MExpr e])) rest).
  { eapply pa_bind; [apply pa_arguments|].
    assert (K : kw_expr_ident k = true) by (destruct W as [->|[->|(w & -> & E)]]; try reflexivity; now apply andb_prop in E as [-> _]).
    rewrite K. eapply pa_bind; [exact H|apply pa_ret]. }
  destruct W as [->|[->|(w & -> & E)]]; cbn [is_kw kw_eqb tok_eqb andb].
  1,2: (eapply pa_bind; [apply pa_listhack|]; exact X).
  apply andb_prop in E as [_ E]. apply negb_true_iff in E. rewrite !(special_not w _ E) by (cbn; tauto).
  eapply pa_bind; [apply pa_listhack|]. cbn [is_kw kw_eqb]. rewrite !(special_not w _ E) by (cbn; tauto). exact X.
Qed.
Lemma word_facts t v : word_tok t v -> exists k, t = TIdent v k /\ wordy k /\ kw_assoc bare_functions t = None /\
  forall s ts, parses o (token_to_plain_identifier t s) ts (mkIdent v s) ts.
Proof.
  intros [->|[U [->|(k & -> & E & R & B)]]]; eexists; (split; [reflexivity|]).
  - split; [right; now left|]. split; [reflexivity|]. intros s ts. cbn [token_to_plain_identifier kw_reserved kw_eqb negb].
    eapply pa_bind; [apply pa_ret|apply pa_ret].
  - split; [now left|]. split; [reflexivity|]. intros s ts. cbn [token_to_plain_identifier kw_reserved kw_eqb negb].
    eapply pa_bind; [now apply pa_lint_ident|apply pa_ret].
  - split; [right; right; eauto|]. split.
    + apply bare_key in B. revert B. generalize bare_functions as l. induction l as [|[x c] l IH]; [reflexivity|]. cbn [has_key existsb fst kw_assoc is_kw kw_eqb].
      destruct (String.eqb k x); [discriminate|]. exact IH.
    + intros s ts. cbn [token_to_plain_identifier]. rewrite R. cbn [kw_eqb negb]. eapply pa_bind; [now apply pa_lint_ident|apply pa_ret].
Qed.
Lemma func_facts t f : func_tok t f -> exists v k, t = TIdent v k /\ wordy k /\ forall s ts, parses o (function_of t s) ts f ts.
Proof.
  intros (v & k & -> & H). exists v, k. split; [reflexivity|]. unfold function_of.
  destruct H as [[K ->]|(w & -> & E & H)].
  - split; [destruct K; [left|right; left]; auto|]. intros s ts.
    replace (kw_assoc function_table (TIdent v k)) with (@None (string * string)) by (destruct K as [-> | ->]; reflexivity).
    replace (kw_reserved k) with false by (destruct K as [-> | ->]; reflexivity). apply pa_ret.
  - split; [right; right; eauto|]. intros s ts. destruct H as [(g & I & ->)|(B & R & ->)].
    + apply func_row in I. rewrite (kw_assoc_in function_table v w g) by (auto; vm_compute; reflexivity). apply pa_ret.
    + apply func_key in B. rewrite (has_key_assoc _ v w B), R. apply pa_ret.
Qed.
Lemma follows_not_lparen t : follows t = true -> tok_eqb t TLParen = false.
Proof. now destruct t. Qed.
Lemma follows_not_over t : follows t = true -> is_kw t "OVER" = false.
Proof. destruct t; try reflexivity. destruct k as [| |k]; try reflexivity. cbn. now destruct (String.eqb k "OVER"). Qed.
Lemma kw_follows k t : kw_tok k t -> String.eqb k "OVER" = false -> follows t = true.
Proof. intros (v & -> & _) H. cbn. now rewrite H. Qed.
Lemma kw_operator k t top op : kw_tok k t -> operator_of top (TIdent [] (KW k)) = op -> operator_of top t = op.
Proof. intros (v & -> & _) H. exact H. Qed.
Lemma kw_opens k t : kw_tok k t -> opens (TIdent [] (KW k)) = true -> opens t = true.
Proof. intros (v & -> & _) H. exact H. Qed.
Lemma kw_stops k t : kw_tok k t -> stops (TIdent [] (KW k)) = true -> stops t = true.
Proof. intros (v & -> & _) H. exact H. Qed.
Lemma pa_stop r inner y rest : stops_at y rest = true -> parses o (read_item r inner true) (y :: rest) None (y :: rest).
Proof.
  intros S. assert (X : operator_of true (fst y) = None /\ parses o (operand r (fst y) true) (y :: rest) None (y :: rest)).
  { destruct y as [t s]. cbn [fst] in *.
    assert (TL : forall t : tok, stops_at (t, s) rest = true -> parses o (step_tail r t []) ((t, s) :: rest) None ((t, s) :: rest)).
    { clear. intros t S. destruct t; try discriminate S; try (eapply pa_bind; [apply pa_arguments|]; destruct (o_arguments o); apply pa_ret).
      destruct k as [| |k]; try discriminate S.
      assert (W : kw_expr_ident (KW k) = false /\ String.eqb k "EXISTS" = false /\ String.eqb k "CASE" = false).
      { unfold stops_at in S. cbn [fst stops is_kw kw_eqb] in S. destruct (existsb (String.eqb k) stop_words) eqn:E.
        - apply stop_word in E. cbn [In stop_words] in E. each E; vm_compute; auto.
        - destruct (String.eqb_spec k "LEFT") as [->|]; [vm_compute; auto|discriminate S]. }
      destruct W as (W1 & W2 & W3). eapply pa_bind; [apply pa_arguments|]. rewrite W1. cbn [tok_eqb andb orb is_kw kw_eqb]. rewrite W2, W3.
      destruct (o_arguments o); apply pa_ret. }
    pose proof (TL _ S) as T.
    destruct t; try discriminate S; try (split; [reflexivity|]; eapply pa_bind; [eapply pa_bind; [apply pa_listhack|]; apply T|apply pa_ret]).
    destruct k as [| |k]; try discriminate S. unfold stops_at in S. cbn [fst stops is_kw kw_eqb] in S. destruct (existsb (String.eqb k) stop_words) eqn:E.
    - apply stop_word in E. cbn [In stop_words] in E.
      each E; (split; [reflexivity|]; eapply pa_bind; [eapply pa_bind; [apply pa_listhack|]; apply T|apply pa_ret]).
    - destruct (String.eqb_spec k "LEFT") as [->|]; [|discriminate S]. split; [reflexivity|]. destruct rest as [|z zs]; [discriminate S|].
      cbn [orb andb] in S. apply negb_true_iff in S.
      eapply pa_bind; [eapply pa_bind; [apply pa_listhack|]; eapply pa_bind; [apply pa_peek|]; rewrite S; exact T|apply pa_ret]. }
  destruct X as [X1 X2]. eapply pa_bind; [apply pa_token|]. rewrite X1. eapply pa_bind; [apply X2|apply pa_ret].
Qed.
Lemma pa_stop_in r inner y rest : stops_in inner y rest = true -> parses o (read_item r inner true) (y :: rest) None (y :: rest).
Proof.
  unfold stops_in. intros H. apply orb_prop in H as [H|H]; [now apply pa_stop|]. apply andb_prop in H as [H1 H]. destruct inner; [|discriminate]. clear H1.
  apply in_words in H as (v & k & E & K). destruct y as [t s]. cbn [fst] in E. subst t.
  eapply pa_bind; [apply pa_token|]. cbn [fst].
  assert (X : parses o (operand r (TIdent v (KW k)) true) ((TIdent v (KW k), s) :: rest) None ((TIdent v (KW k), s) :: rest)).
  { destruct K as [-> | ->]; (eapply pa_bind; [eapply pa_bind; [apply pa_listhack|]; eapply pa_bind; [apply pa_arguments|]; destruct (o_arguments o); apply pa_ret|apply pa_ret]). }
  destruct K as [-> | ->]; (eapply pa_bind; [apply X|apply pa_ret]).
Qed.
Lemma pa_list b n ts l s y rest : P_list b ts l -> length ts < n ->
  parses o (recovered_list (r_n (knot (S n))) (list_elem b n)) (ts ++ (TRParen, s) :: y :: rest) l ((TRParen, s) :: y :: rest).
Proof. intros (H1 & H2 & H3 & H4) L. apply (H4 n (r_n (knot (S n))) []); [exact L|rewrite r_n_knot; lia]. Qed.
Lemma pa_in_list n ts l s1 s2 y rest : P_list true ts l -> length ts < n ->
  parses o (parse_in_list (knot (S n))) ((TLParen, s1) :: ts ++ (TRParen, s2) :: y :: rest) l (y :: rest).
Proof.
  intros H L. destruct (cons_app ts (TRParen, s2) (y :: rest)) as (z & zs & Z). rewrite Z.
  eapply pa_bind; [now apply pa_consume_token|]. rewrite <- Z.
  eapply pa_bind; [apply (pa_list true n ts l s2 y rest H L)|].
  eapply pa_bind; [now apply pa_consume_token|]. apply pa_ret.
Qed.
(** The two cases of a list. *)
Lemma P_sep_one A (p : nat -> prog A) f ts a : P_one p f ts a -> P_sep p f ts [a].
Proof.
  intros (H1 & H2). split; [exact H1|]. split; [cbn; lia|]. intros n m acc y rest L1 L2 F C. apply sep_one; auto.
Qed.
Lemma P_sep_more A (p : nat -> prog A) f ts a s ts' l : P_one p f ts a -> P_sep p f ts' l -> (forall s rest, f (TComma, s) rest = true) ->
  P_sep p f (ts ++ (TComma, s) :: ts') (a :: l).
Proof.
  intros (H1 & H2) (H3 & H4 & H5) F. unfold P_sep. rewrite app_length. cbn [length]. split; [lia|]. split; [lia|].
  intros n m acc y rest L1 L2 Fy C. destruct m as [|m]; [lia|]. rewrite <- app_assoc. cbn [app].
  destruct (cons_app ts' y rest) as (z & zs & Z). rewrite Z. apply sep_more; [apply H2; [lia|apply F]|]. rewrite <- Z.
  replace (acc ++ a :: l) with ((acc ++ [a]) ++ l) by now rewrite <- app_assoc. apply H5; auto; lia.
Qed.
Lemma pa_sep A (p : nat -> prog A) f ts l n y rest k : P_sep p f ts l -> length ts < n -> length ts <= k -> f y rest = true -> tok_eqb (fst y) TComma = false ->
  parses o (sep_list k (p n)) (ts ++ y :: rest) l (y :: rest).
Proof. intros (_ & L & H) L1 L2 F C. apply (H n k []); auto. lia. Qed.
End Grammar.
