(** The parser reads what the grammar generates: the cases. *)
From Verif Require Export Grammar.
Local Open Scope string_scope.
Local Open Scope list_scope.

Section Cases.
Variable o : reading.
Notation word_tok := (word_tok o). Notation dotted := (dotted o). Notation kw_tok := (kw_tok o). Notation name_tok := (name_tok o).
Notation P_operand := (P_operand o). Notation P_items := (P_items o). Notation P_expr := (P_expr o). Notation P_list := (P_list o).
Notation P_sep := (P_sep o). Notation P_one := (P_one o).
Notation parses := (parses o).

(** What may follow. *)
Definition ranks : list (string * nat) :=
  [("FROM", 1); ("WHERE", 2); ("GROUP", 3); ("HAVING", 4); ("WINDOW", 5); ("ORDER", 6); ("LIMIT", 7); ("FOR", 8); ("UNION", 9); ("SET", 10); ("RETURNING", 10); ("END", 11); ("ELSE", 11); ("ELSEIF", 11); ("WHEN", 11)].
Definition rank (t : tok) : nat :=
  match t with
  | TEof | TSemiColon | TDoubleDollar | TRParen => 11
  | TIdent _ (KW k) => match kw_assoc ranks t with Some (_, n) => n | None => 0 end
  | _ => 0
  end.
Definition from (i : nat) (y : tok * span) : bool := Nat.leb i (rank (fst y)).
Definition ranked_words (i : nat) : list string := map fst (filter (fun x => Nat.leb i (snd x)) ranks).
Lemma from_cases i y : from i y = true -> 0 < i ->
  (fst y = TEof \/ fst y = TSemiColon \/ fst y = TDoubleDollar \/ fst y = TRParen) \/ exists v k, fst y = TIdent v (KW k) /\ In k (ranked_words i).
Proof.
  unfold from. destruct y as [t s]. cbn [fst]. intros H I. apply Nat.leb_le in H. destruct t; cbn [rank] in H; try lia; auto.
  destruct k as [| |k]; try lia. right. exists t, k. split; [reflexivity|].
  destruct (kw_assoc ranks (TIdent t (KW k))) as [[w n]|] eqn:E; [|lia].
  assert (G : forall l : list (string * nat), kw_assoc l (TIdent t (KW k)) = Some (w, n) -> In (k, n) l).
  { clear. induction l as [|[x c] l IH]; [discriminate|]. cbn [kw_assoc is_kw kw_eqb]. destruct (String.eqb_spec k x) as [->|].
    - intros H. injection H as <- <-. now left.
    - intros H. right. auto. }
  apply G in E. unfold ranked_words. apply in_map_iff. exists (k, n). split; [reflexivity|]. apply filter_In. split; [exact E|]. now apply Nat.leb_le.
Qed.
Ltac from_tac H := (* H : from i y = true, for a number i; the goal a closed property of [fst y] *)
  apply from_cases in H as [[H|[H|[H|H]]]|(?v & ?k & H & I)]; [| | | | |lia]; rewrite ?H; [reflexivity|reflexivity|reflexivity|reflexivity|];
  cbn in I; repeat (destruct I as [<-|I]; [reflexivity|]); destruct I.
Lemma from_le i j y : from j y = true -> i <= j -> from i y = true.
Proof. unfold from. rewrite !Nat.leb_le. lia. Qed.
Lemma from_stops y : from 1 y = true -> stops (fst y) = true.
Proof. intros H. from_tac H. Qed.
Lemma from_not_comma y : from 1 y = true -> tok_eqb (fst y) TComma = false.
Proof. intros H. from_tac H. Qed.
Lemma from_not_kw i y k : from i y = true -> 0 < i -> existsb (String.eqb k) (ranked_words i) = false -> is_kw (fst y) k = false.
Proof.
  intros H I E. apply from_cases in H as [[H|[H|[H|H]]]|(v & w & H & J)]; [| | | | |exact I]; rewrite H; try reflexivity. cbn [is_kw kw_eqb].
  destruct (String.eqb_spec w k) as [->|]; [|reflexivity]. rewrite <- E. symmetry. apply existsb_exists. exists k. split; [exact J|apply String.eqb_refl].
Qed.
Definition f_expr (y : tok * span) (rest : tks) := stops_at y rest.
Definition f_sel (y : tok * span) (rest : tks) := stops_at y rest && negb (is_kw (fst y) "AS").
Definition f_sort (y : tok * span) (rest : tks) := stops_at y rest && negb (is_kw (fst y) "ASC") && negb (is_kw (fst y) "DESC").
Definition join_words := ["INNER"; "CROSS"; "JOIN"; "LEFT"; "RIGHT"; "NATURAL"; "STRAIGHT_JOIN"].
Definition tab_words := "ON" :: "USING" :: join_words ++ ["WHERE"; "GROUP"; "HAVING"; "WINDOW"; "ORDER"; "LIMIT"; "FOR"; "UNION"; "SET"; "RETURNING"; "END"; "ELSE"; "ELSEIF"; "WHEN"].
Definition f_tab (y : tok * span) (rest : tks) : bool :=
  match fst y with
  | TEof | TSemiColon | TDoubleDollar | TRParen | TComma => true
  | TIdent _ (KW k) => existsb (String.eqb k) tab_words
  | _ => false
  end.
Definition f_join (b : join_end) (y : tok * span) (rest : tks) : bool :=
  f_tab y rest && negb (is_kw (fst y) "ON") && negb (is_kw (fst y) "USING") &&
  match b with EndTable => true | EndOn => stops_at y rest | EndUsing => negb (tok_eqb (fst y) TComma) end.
Definition f_from (y : tok * span) (rest : tks) : bool := from 2 y || tok_eqb (fst y) TComma.
Definition f_end (b : ending) (y : tok * span) (rest : tks) : bool :=
  match b with
  | Closed => true
  | NoFrom => f_sel y rest && negb (tok_eqb (fst y) TComma) && negb (is_kw (fst y) "FROM")
  | WithFrom => from 9 y
  end.

Definition P_args (ts : tks) (l : list expr) : Prop := (ts = [] /\ l = []) \/ P_list false ts l.
(** The words with which a property of a type begins, and what may follow a type. *)
Definition prop_words (no_as : bool) : list string :=
  map fst word_properties ++ ["NOT"; "CHARACTER"; "COLLATE"; "COMMENT"; "DEFAULT"; "UNIQUE"; "GENERATED"; "PRIMARY"; "CHECK"] ++ (if no_as then [] else ["AS"]).
Definition type_end (no_as : bool) (t : tok) : bool :=
  negb (tok_eqb t TLParen) && negb (is_kw t "WITH") && negb (is_kw t "KEY") && negb (is_some (string_token t)) && negb (existsb (is_kw t) (prop_words no_as)).
Definition P_prop (no_as b : bool) (ts : tks) (p : dt_property expr) : Prop :=
  0 < length ts /\ existsb (is_kw (hd_tok ts)) (prop_words no_as) = true /\
  forall n y rest, length ts < n -> string_token (fst y) = None -> is_kw (fst y) "KEY" = false -> (b = true -> stops_in true y rest = true) ->
    parses (parse_property (knot n) no_as) (ts ++ y :: rest) (Some p) (y :: rest).
Definition props_body (r : recs) (no_as : bool) := fun l : list (dt_property expr) =>
             p <- parse_property r no_as ;;
             match p with Some p => Ret (inl (l ++ [p])) | None => Ret (inr l) end.
Definition P_props (no_as b : bool) (ts : tks) (l : list (dt_property expr)) : Prop :=
  (ts = [] \/ existsb (is_kw (hd_tok ts)) (prop_words no_as) = true) /\ (l <> [] -> 0 < length ts) /\ length l <= length ts /\
  forall n m acc y rest, length ts < n -> length l < m -> type_end no_as (fst y) = true -> (b = true -> stops_in true y rest = true) ->
    parses (loop m (props_body (knot n) no_as) acc) (ts ++ y :: rest) (acc ++ l) (y :: rest).
Definition P_dtype (no_as b : bool) (ts : tks) (d : data_type expr) : Prop :=
  0 < length ts /\
  forall n y rest, length ts < n -> type_end no_as (fst y) = true -> (b = true -> stops_in true y rest = true) ->
    parses (parse_data_type (knot n) no_as) (ts ++ y :: rest) d (y :: rest).
Definition P_value (ts : tks) (v : option expr) : Prop := match v with None => ts = [] | Some e => P_expr false ts e end.
Definition when_body (r : recs) := fun l : list (when expr) =>
      w <- consume_keyword "WHEN" ;;
      c <- r_expr r false ;;
      th <- consume_keyword "THEN" ;;
      e <- r_expr r false ;;
      t <- token ;;
      Ret (l ++ [mkWhen w c th e], if is_kw t "WHEN" then Continue else Break).
Definition P_whens (ts : tks) (l : list (when expr)) : Prop :=
  0 < length ts /\ is_kw (hd_tok ts) "WHEN" = true /\ length l <= length ts /\
  forall n m acc y rest, length ts < n -> length l <= m -> stops (fst y) = true -> is_kw (fst y) "WHEN" = false ->
    parses (loop_acc m (when_body (knot n)) acc) (ts ++ y :: rest) (acc ++ l, true) (y :: rest).
Definition P_head (k : string) (ts : tks) (s : span) (P : tks -> Prop) : Prop := exists t us, ts = (t, s) :: us /\ kw_tok k t /\ P us.
Definition P_else (ts : tks) (e : option (span * expr)) : Prop :=
  match e with None => ts = [] | Some (s, e) => P_head "ELSE" ts s (fun us => P_expr false us e) end.
Definition P_selected (ts : tks) (e : select_expr expr) : Prop := opens (hd_tok ts) = true /\ P_one (fun n => parse_select_expr (knot n)) f_sel ts e.
Definition P_selection (ts : tks) (l : list (select_expr expr)) : Prop :=
  opens (hd_tok ts) = true /\ P_sep (fun n => parse_select_expr (knot n)) f_sel ts l.
Definition P_table (ts : tks) (t : tref expr stmt) : Prop := P_one (fun n => parse_table_reference_inner (knot (S n))) f_tab ts t.
Definition P_on (b : join_end) (ts : tks) (c : option (join_spec expr)) : Prop :=
  match c with
  | None => b = EndTable /\ ts = []
  | Some (JOn e s) => b = EndOn /\ P_head "ON" ts s (fun us => P_expr false us e)
  | Some (JUsing l s) => b = EndUsing /\ P_head "USING" ts s (fun us => commas (ident_is o) us l)
  end.
Definition join_body (r : recs) := fun ans : tref expr stmt =>
    j <- parse_join_type ;;
    match j with
    | None => Ret (inr ans)
    | Some j =>
        right <- parse_table_reference_inner r ;;
        spec <- parse_join_spec r ;;
        Ret (inl (TRJoin j ans right spec))
    end.
Definition P_tables (b : join_end) (ts : tks) (t : tref expr stmt) : Prop :=
  0 < length ts /\ exists k, k < length ts /\
  forall n m y rest t' Z, length ts < n -> f_join b y rest = true ->
    parses (loop m (join_body (knot (S n))) t) (y :: rest) t' Z ->
    parses (a <- parse_table_reference_inner (knot (S n)) ;; loop (k + m) (join_body (knot (S n))) a) (ts ++ y :: rest) t' Z.
Definition P_from (ts : tks) (l : list (tref expr stmt)) : Prop := P_sep (fun n => parse_table_reference (knot (S n))) f_from ts l.
Definition P_cond (k : string) (ts : tks) (c : option (expr * span)) : Prop :=
  match c with None => ts = [] | Some (e, s) => P_head k ts s (fun us => P_expr false us e) end.
Definition P_exprs (ts : tks) (l : list expr) : Prop := P_sep (fun n => r_expr (knot n) false) f_expr ts l.
Definition P_group (ts : tks) (g : option (span * list expr)) : Prop :=
  match g with
  | None => ts = []
  | Some (sp, l) => exists t s t' s' us, ts = (t, s) :: (t', s') :: us /\ sp = join s' s /\ kw_tok "GROUP" t /\ kw_tok "BY" t' /\ P_exprs us l
  end.
Definition sort_elem (r : recs) : prog (expr * order_flag) :=
    (e <- r_expr r false ;;
     t <- token ;;
     f <- (if is_kw t "ASC" then s <- consume ;; Ret (OAsc s)
           else if is_kw t "DESC" then s <- consume ;; Ret (ODesc s)
           else Ret ONone) ;;
     Ret (e, f)).
Definition P_sorted (ts : tks) (l : list (expr * order_flag)) : Prop := P_sep (fun n => sort_elem (knot n)) f_sort ts l.
Definition P_order (ts : tks) (g : option (order_list expr)) : Prop :=
  match g with
  | None => ts = []
  | Some (sp, l) => exists t s t' s' us, ts = (t, s) :: (t', s') :: us /\ sp = join s' s /\ kw_tok "ORDER" t /\ kw_tok "BY" t' /\ P_sorted us l
  end.
Definition P_limit (ts : tks) (l : option (limit expr)) : Prop :=
  (ts = [] \/ exists t s us, ts = (t, s) :: us /\ kw_tok "LIMIT" t) /\
  forall n y rest, length ts < n -> from 8 y = true -> parses (parse_limit (knot n)) (ts ++ y :: rest) l (y :: rest).
Definition P_select (b : ending) (ts : tks) (s : select expr stmt) : Prop :=
  0 < length ts /\ is_kw (hd_tok ts) "SELECT" = true /\
  forall n y rest, length ts < n -> f_end b y rest = true -> parses (parse_select (knot n)) (ts ++ y :: rest) s (y :: rest).
Definition starts (t : tok) : Prop := is_kw t "SELECT" = true \/ t = TLParen.
Definition P_bottom (b : ending) (ts : tks) (q : stmt) : Prop :=
  0 < length ts /\ starts (hd_tok ts) /\
  (b = Closed -> hd_tok ts = TLParen) /\
  forall n y rest, length ts < n -> f_end b y rest = true -> parses (parse_compound_query_bottom (knot n)) (ts ++ y :: rest) q (y :: rest).
Definition union_body (r : recs) := fun l : list (union_with stmt) =>
    union_span <- consume_keyword "UNION" ;;
    t <- token ;;
    ty <- (if is_kw t "ALL" then s <- consume_keyword "ALL" ;; Ret (UTAll s)
           else if is_kw t "DISTINCT" then s <- consume_keyword "DISTINCT" ;; Ret (UTDistinct s)
           else Ret UTDefault) ;;
    s <- parse_compound_query_bottom r ;;
    let l := l ++ [mkUnionWith union_span ty s] in
    t <- token ;;
    if is_kw t "UNION" then Ret (inl l) else Ret (inr l).
Definition P_unions (b : ending) (ts : tks) (l : list (union_with stmt)) : Prop :=
  0 < length ts /\ is_kw (hd_tok ts) "UNION" = true /\ length l <= length ts /\
  forall n m acc y rest, length ts < n -> length l <= m -> f_end b y rest = true -> is_kw (fst y) "UNION" = false ->
    parses (loop m (union_body (knot n)) acc) (ts ++ y :: rest) (acc ++ l) (y :: rest).
Definition P_query (ts : tks) (q : stmt) : Prop :=
  0 < length ts /\ starts (hd_tok ts) /\
  forall n y rest, length ts < n -> from 10 y = true -> parses (parse_compound_query (knot n)) (ts ++ y :: rest) q (y :: rest).

(** ** Operands *)
Ltac op_start := split; [reflexivity|]; split; [reflexivity|]; split; [cbn; lia|]; intros n y rest L F; cbn [hd_tok fst app].
Lemma c_integer v s : (digits_value v <= u64_max)%N -> P_operand [(TInteger v, s)] (EInteger (digits_value v, s)).
Proof.
  intros R. op_start. apply pa_wrap. eapply pa_bind; [apply pa_listhack|]. cbn [is_kw andb]. eapply pa_bind; [|apply pa_ret].
  eapply pa_bind; [apply pa_token|]. cbn [fst]. apply N.leb_le in R. rewrite R. eapply pa_bind; [apply pa_ret|].
  eapply pa_bind; [apply pa_consume; np|apply pa_ret].
Qed.
Lemma c_float v s : P_operand [(TFloat v, s)] (EFloat (v, s)).
Proof.
  op_start. apply pa_wrap. eapply pa_bind; [apply pa_listhack|]. cbn [is_kw andb]. eapply pa_bind; [|apply pa_ret].
  eapply pa_bind; [apply pa_token|]. cbn [fst]. eapply pa_bind; [apply pa_consume; np|apply pa_ret].
Qed.
Ltac const_word := split; [reflexivity|]; split; [reflexivity|]; split; [cbn; lia|]; intros n y rest _ _; cbn [hd_tok fst app]; apply pa_wrap;
  cbn [is_kw kw_eqb String.eqb Ascii.eqb Bool.eqb tok_eqb andb]; (eapply pa_bind; [apply pa_listhack|]); cbn [is_kw kw_eqb String.eqb Ascii.eqb Bool.eqb];
  (eapply pa_bind; [now apply pa_consume_keyword|]); apply pa_ret.
Lemma c_null t s : kw_tok "NULL" t -> P_operand [(t, s)] (ENull s).
Proof. intros K. pose proof K as (v & -> & _). const_word. Qed.
Lemma c_true t s : kw_tok "TRUE" t -> P_operand [(t, s)] (EBool true s).
Proof. intros K. pose proof K as (v & -> & _). const_word. Qed.
Lemma c_false t s : kw_tok "FALSE" t -> P_operand [(t, s)] (EBool false s).
Proof. intros K. pose proof K as (v & -> & _). const_word. Qed.
Lemma c_name t v s ts ps : word_tok t v -> dotted ts ps -> P_operand ((t, s) :: ts) (EIdentifier (mkParts (PName (mkIdent v s) :: ps))).
Proof.
  intros W D. destruct (word_facts _ _ _ W) as (k & -> & K & B & PI). destruct (wordy_opens v k K) as [K1 K2].
  split; [exact K2|]. split; [exact K1|]. split; [cbn; lia|]. intros n y rest L F. cbn [hd_tok fst].
  apply word_operand; [exact K|]. destruct (cons_app ts y rest) as (z & zs & Z). cbn [app]. rewrite Z.
  eapply pa_bind; [apply pa_consume; np|]. eapply pa_bind; [apply pa_token|].
  assert (E : tok_eqb (fst z) TLParen = false).
  { destruct D; cbn in Z; injection Z as <- <-; [now apply follows_not_lparen|reflexivity|reflexivity]. }
  rewrite E, B. eapply pa_bind; [apply PI|]. rewrite <- Z. eapply pa_bind; [|apply pa_ret].
  apply (pa_id_parts o ts ps D (r_n (knot n)) [PName (mkIdent v s)]); [exact F|]. rewrite r_n_knot. apply dotted_length in D. cbn in L. lia.
Qed.
Lemma c_star s : P_operand [(TMul, s)] (EIdentifier (mkParts [PStar s])).
Proof. op_start. apply pa_wrap. cbn [is_kw tok_eqb negb andb]. eapply pa_bind; [now apply pa_consume_token|apply pa_ret]. Qed.
Ltac paren_start ts s2 := split; [reflexivity|]; split; [reflexivity|]; split; [cbn; lia|]; intros n y rest L F; cbn [hd_tok fst app length] in *;
  rewrite app_length in L; cbn [length] in L; (destruct n as [|[|n]]; [lia|lia|]); apply pa_wrap;
  (eapply pa_bind; [apply pa_listhack|]); cbn [is_kw andb]; (eapply pa_bind; [apply pa_arguments|]); cbn [tok_eqb andb];
  rewrite <- app_assoc; cbn [app]; destruct (cons_app ts (TRParen, s2) (y :: rest)) as (z & zs & Z); rewrite Z;
  (eapply pa_bind; [now apply pa_consume_token|]); rewrite <- Z.
Lemma c_paren s1 ts s2 e : P_expr false ts e -> P_operand ((TLParen, s1) :: ts ++ [(TRParen, s2)]) e.
Proof.
  intros H. paren_start ts s2.
  eapply pa_bind; [apply (pa_paren_expr o parse_expression_paren ts e (S n) (TRParen, s2)); auto; lia|].
  eapply pa_bind; [now apply pa_consume_token|]. apply pa_ret.
Qed.
Lemma c_subquery s1 ts s2 q : P_query ts q -> is_kw (hd_tok ts) "SELECT" = true -> P_operand ((TLParen, s1) :: ts ++ [(TRParen, s2)]) (ESubquery q).
Proof.
  intros (H1 & _ & H3) K. paren_start ts s2.
  eapply pa_bind.
  { destruct (cons_len ts H1) as (x & xs & -> & Hx). rewrite Hx in K. cbn [app]. eapply pa_bind; [apply pa_token|]. rewrite K.
    eapply pa_bind; [apply (H3 (S n) (TRParen, s2) (y :: rest)); [lia|reflexivity]|apply pa_ret]. }
  eapply pa_bind; [now apply pa_consume_token|]. apply pa_ret.
Qed.
Lemma c_exists t s s1 ts s2 q : kw_tok "EXISTS" t -> P_query ts q -> P_operand ((t, s) :: (TLParen, s1) :: ts ++ [(TRParen, s2)]) (EExists q).
Proof.
  intros K (H1 & _ & H3). pose proof K as (v & -> & _). split; [reflexivity|]; split; [reflexivity|]; split; [cbn; lia|].
  intros n y rest L F. cbn [hd_tok fst app length] in *. rewrite app_length in L. cbn [length] in L. destruct n as [|n]; [lia|]. apply pa_wrap.
  cbn [is_kw kw_eqb String.eqb Ascii.eqb Bool.eqb tok_eqb andb]. eapply pa_bind; [apply pa_listhack|]. cbn [is_kw kw_eqb String.eqb Ascii.eqb Bool.eqb andb].
  eapply pa_bind; [apply pa_arguments|]. change (kw_expr_ident (KW "EXISTS")) with false. cbn [is_kw kw_eqb String.eqb Ascii.eqb Bool.eqb tok_eqb andb].
  rewrite <- app_assoc. cbn [app]. destruct (cons_app ts (TRParen, s2) (y :: rest)) as (z & zs & Z). rewrite Z.
  eapply pa_bind; [now apply pa_consume_keyword|]. eapply pa_bind; [now apply pa_consume_token|]. rewrite <- Z.
  eapply pa_bind; [apply (H3 n (TRParen, s2) (y :: rest)); [lia|reflexivity]|].
  eapply pa_bind; [now apply pa_consume_token|]. apply pa_ret.
Qed.
(** CASE. *)
Lemma c_when t s ts e t' s' ts' e' acc n y rest : kw_tok "WHEN" t -> P_expr false ts e -> kw_tok "THEN" t' -> P_expr false ts' e' ->
  length ts + length ts' < n -> stops_at y rest = true ->
  parses (when_body (knot n) acc) ((t, s) :: ts ++ (t', s') :: ts' ++ y :: rest)
    (acc ++ [mkWhen s e s' e'], if is_kw (fst y) "WHEN" then Continue else Break) (y :: rest).
Proof.
  intros K H K' H' L F. destruct n as [|n]; [lia|]. destruct (cons_app ts (t', s') (ts' ++ y :: rest)) as (z & zs & Z). rewrite Z.
  eapply pa_bind; [now apply pa_consume_keyword|]. rewrite <- Z. destruct (cons_app ts' y rest) as (z' & zs' & Z'). rewrite Z'.
  eapply pa_bind; [apply (pa_r_expr o false ts e n (t', s')); [exact H|lia|]|].
  { apply stops_stops_at. now apply (kw_stops o "THEN"). }
  eapply pa_bind; [now apply pa_consume_keyword|]. rewrite <- Z'.
  eapply pa_bind; [apply (pa_r_expr o false ts' e' n y rest H'); [lia|exact F]|].
  eapply pa_bind; [apply pa_token|]. apply pa_ret.
Qed.
Lemma c_when_one t s ts e t' s' ts' e' : kw_tok "WHEN" t -> P_expr false ts e -> kw_tok "THEN" t' -> P_expr false ts' e' ->
  P_whens ((t, s) :: ts ++ (t', s') :: ts') [mkWhen s e s' e'].
Proof.
  intros K H K' H'. split; [cbn; lia|]. split; [apply (kw_is o); exact K|]. split; [cbn; lia|]. intros n m acc y rest L1 L2 F N.
  cbn [length] in L1, L2. rewrite app_length in L1. cbn [length] in L1. destruct m as [|m]; [lia|]. cbn [loop_acc app]. rewrite <- app_assoc. cbn [app].
  eapply pa_try; [apply (c_when t s ts e t' s' ts' e' acc n y rest); auto; [lia|now apply stops_stops_at]|]. rewrite N. apply pa_ret.
Qed.
Lemma c_when_more t s ts e t' s' ts' e' us l : kw_tok "WHEN" t -> P_expr false ts e -> kw_tok "THEN" t' -> P_expr false ts' e' -> P_whens us l ->
  P_whens ((t, s) :: ts ++ (t', s') :: ts' ++ us) (mkWhen s e s' e' :: l).
Proof.
  intros K H K' H' (I1 & I2 & I3 & I4). split; [cbn; lia|]. split; [apply (kw_is o); exact K|]. split; [cbn; rewrite app_length; cbn; rewrite app_length; lia|].
  intros n m acc y rest L1 L2 F N. cbn [length] in L1, L2. rewrite app_length in L1. cbn [length] in L1. rewrite app_length in L1.
  destruct m as [|m]; [lia|]. cbn [loop_acc app]. rewrite <- app_assoc. cbn [app]. rewrite <- app_assoc.
  destruct (cons_len us I1) as (z & zs & -> & Hz). rewrite Hz in I2.
  eapply pa_try; [apply (c_when t s ts e t' s' ts' e' acc n z (zs ++ y :: rest)); auto; [lia|]|].
  { apply stops_stops_at. destruct z as [[] ?]; try discriminate. destruct k as [| |k]; try discriminate. cbn [fst is_kw kw_eqb] in I2. apply String.eqb_eq in I2. now subst k. }
  rewrite I2. replace (acc ++ mkWhen s e s' e' :: l) with ((acc ++ [mkWhen s e s' e']) ++ l) by now rewrite <- app_assoc.
  apply (I4 n m _ y rest); auto; lia.
Qed.
Lemma kw_hd k s P ts : P_head k ts s P -> is_kw (hd_tok ts) k = true.
Proof. intros (t & us & -> & K & _). exact (kw_is o _ _ K). Qed.
Lemma kw_hd_stops k s P ts : P_head k ts s P -> stops (TIdent [] (KW k)) = true -> stops (hd_tok ts) = true.
Proof. intros (t & us & -> & K & _) H. exact (kw_stops o _ _ K H). Qed.
Lemma c_case t s ts v ws l es e t' s' : kw_tok "CASE" t -> P_value ts v -> P_whens ws l -> P_else es e -> kw_tok "END" t' ->
  P_operand ((t, s) :: ts ++ ws ++ es ++ [(t', s')]) (ECase s v l e s').
Proof.
  intros K V (W1 & W2 & W3 & W4) E K'. pose proof K as (w & -> & _). split; [reflexivity|]; split; [reflexivity|]; split; [cbn; lia|].
  intros n y rest L F. cbn [hd_tok fst app length] in *. rewrite !app_length in L. cbn [length] in L. destruct n as [|n]; [lia|]. apply pa_wrap.
  cbn [is_kw kw_eqb String.eqb Ascii.eqb Bool.eqb tok_eqb andb]. eapply pa_bind; [apply pa_listhack|]. cbn [is_kw kw_eqb String.eqb Ascii.eqb Bool.eqb andb].
  eapply pa_bind; [apply pa_arguments|]. change (kw_expr_ident (KW "CASE")) with false. cbn [is_kw kw_eqb String.eqb Ascii.eqb Bool.eqb tok_eqb andb].
  rewrite <- !app_assoc. cbn [app].
  assert (X : parses (step_case (knot (S n)) []) ((TIdent w (KW "CASE"), s) :: ts ++ ws ++ es ++ (t', s') :: y :: rest) (RedOk [MExpr (ECase s v l e s')]) (y :: rest)).
  2:{ destruct (o_arguments o); (eapply pa_bind; [exact X|apply pa_ret]). }
  destruct (cons_len ws W1) as (x & xs & Ew & Hx). rewrite Hx in W2.
  assert (SW : stops (fst x) = true).
  { destruct x as [[] ?]; try discriminate. destruct k as [| |k]; try discriminate. cbn [fst is_kw kw_eqb] in W2. apply String.eqb_eq in W2. now subst k. }
  unfold step_case. destruct (cons_app ts x (xs ++ es ++ (t', s') :: y :: rest)) as (z & zs & Z).
  assert (Z' : ts ++ ws ++ es ++ (t', s') :: y :: rest = z :: zs) by (rewrite Ew; cbn [app]; exact Z). rewrite Z'.
  eapply pa_bind; [now apply pa_consume_keyword|]. eapply pa_bind; [apply pa_token|].
  eapply (pa_bind o _ _ _ _ _ v (ws ++ es ++ (t', s') :: y :: rest)).
  { destruct v as [v|]; cbn [P_value] in V.
    - pose proof V as (V1 & V2 & _). assert (Hz : fst z = hd_tok ts) by (destruct ts; [cbn in V2; lia|]; cbn in Z; now injection Z as <- _).
      assert (N : is_kw (fst z) "WHEN" = false) by (rewrite Hz; apply opens_kw; [exact V1|right; now left]). rewrite N. cbn [negb].
      rewrite <- Z, Ew. cbn [app]. eapply pa_bind; [apply (pa_r_expr o false ts v n x); [exact V|lia|now apply stops_stops_at]|apply pa_ret].
    - subst ts. cbn [app] in Z'. assert (Hz : z = x) by (rewrite Ew in Z'; cbn in Z'; congruence). rewrite Hz, W2. cbn [negb]. rewrite <- Hz, <- Z'. apply pa_ret. }
  eapply (pa_bind o _ _ _ _ _ (l, e) ((t', s') :: y :: rest)).
  { eapply (pa_bind o _ _ _ _ _ ((l, e), true) ((t', s') :: y :: rest)).
    - eapply (pa_bind o _ _ _ _ _ (l, true) (es ++ (t', s') :: y :: rest)).
      + assert (G : exists x' xs', es ++ (t', s') :: y :: rest = x' :: xs' /\ stops (fst x') = true /\ is_kw (fst x') "WHEN" = false).
        { destruct e as [[se e]|]; cbn [P_else] in E.
          - destruct E as (te & us & -> & Ke & _). eexists _, _. split; [reflexivity|]. split; [now apply (kw_stops o "ELSE")|]. now apply (kw_is_not o "ELSE").
          - subst es. eexists _, _. split; [reflexivity|]. split; [now apply (kw_stops o "END")|]. now apply (kw_is_not o "END"). }
        destruct G as (x' & xs' & Ex & Sx & Nx). rewrite Ex. apply (W4 (S n) (r_n (knot (S n))) [] x' xs'); auto; [lia|rewrite r_n_knot; lia].
      + cbn iota beta. destruct e as [[se e]|]; cbn [P_else] in E.
        * destruct E as (te & us & -> & Ke & He). cbn [app length] in *. destruct (cons_app us (t', s') (y :: rest)) as (u & vs & U). rewrite U.
          eapply pa_bind; [now apply pa_skip_keyword|]. cbn iota. rewrite <- U.
          eapply pa_try; [apply (pa_r_expr o false us e n (t', s') (y :: rest) He); [lia|apply stops_stops_at; now apply (kw_stops o "END")]|]. apply pa_ret.
        * subst es. cbn [app]. eapply pa_bind; [apply pa_skip_keyword_no; now apply (kw_is_not o "END")|]. apply pa_ret.
    - cbn iota beta. eapply pa_bind; [apply pa_ret|]. eapply (pa_bind o _ _ _ _ _ tt); [|apply pa_ret].
      eapply pa_bind; [apply pa_token|]. cbn [fst]. rewrite (kw_is o _ _ K'). apply pa_ret. }
  cbn iota beta. eapply pa_bind; [now apply pa_consume_keyword|]. apply pa_ret.
Qed.

(** ** Chains *)
Lemma c_end : forall inner, P_items inner true [] [].
Proof.
  intros inner. split; [auto|]. split; [discriminate|]. split; [auto|]. intros n y rest st _ S A O.
    destruct (pa_stop_in o (knot n) inner y rest S st A O) as (st' & E & A' & S'). exists st'. split; [now constructor|auto].
Qed.
Lemma c_operand : forall inner ts e ts' l, P_operand ts e -> P_items inner true ts' l -> P_items inner false (ts ++ ts') (IExp e :: l).
Proof.
  intros inner ts e ts' l (IH1 & IH2 & IH3 & IH4) (IH5 & _ & IH7 & IH8). split; [discriminate|].
    split; [intros _; rewrite hd_app, app_length by auto; split; [lia|auto]|]. rewrite app_length. split; [cbn; lia|].
    intros n y rest st L S A O. rewrite <- app_assoc in A. destruct (cons_app ts' y rest) as (z & zs & Z). rewrite Z in A.
    assert (Fz : follows (fst z) = true).
    { destruct ts' as [|w ws]; cbn in Z; injection Z as <- <-; [now apply (stops_in_follows inner y rest)|]. destruct IH5 as [?|?]; auto. discriminate. }
    assert (P : parses (read_item (knot n) inner false) (ts ++ z :: zs) (Some (IExp e)) (z :: zs)).
    { destruct ts as [|x ts]; [cbn in IH3; lia|]. cbn [app hd_tok] in *. eapply pa_bind; [apply pa_token|]. rewrite IH1.
      eapply pa_bind; [apply (IH4 n z zs); [cbn in *; lia|exact Fz]|]. apply pa_ret. }
    destruct (P st A O) as (st1 & E1 & A1 & S1). rewrite <- Z in A1.
    destruct (IH8 n y rest st1) as (st2 & R2 & A2 & S2); [lia|exact S|exact A1|now rewrite (sm_opts _ _ S1)|].
    exists st2. split; [eapply rd_item; eauto|]. split; [exact A2|eapply same_trans; eauto].
Qed.
Lemma c_prefix : forall inner t s op ts l, operator_of false t = Some (OpUn op) -> allowed inner (OpUn op) = true -> P_items inner false ts l -> P_items inner false ((t, s) :: ts) (IUn op s :: l).
Proof.
  intros inner t s op ts l Ho Ha (_ & IH2 & IH3 & IH4). split; [discriminate|].
    split; [intros _; cbn; split; [lia|eapply not_select; eauto]|]. split; [cbn; lia|].
    intros n y rest st L S A O. cbn [app] in A. destruct (cons_app ts y rest) as (z & zs & Z). rewrite Z in A.
    assert (P : parses (read_item (knot n) inner false) ((t, s) :: z :: zs) (Some (IUn op s)) (z :: zs)).
    { eapply pa_bind; [apply pa_token|]. cbn [fst]. rewrite Ho, Ha. eapply pa_bind; [apply pa_consume; np|apply pa_ret]. }
    destruct (P st A O) as (st1 & E1 & A1 & S1). rewrite <- Z in A1.
    destruct (IH4 n y rest st1) as (st2 & R2 & A2 & S2); [cbn in L; lia|exact S|exact A1|now rewrite (sm_opts _ _ S1)|].
    exists st2. split; [eapply rd_item; eauto|]. split; [exact A2|eapply same_trans; eauto].
Qed.
Lemma c_binary : forall inner t s op ts l, operator_of true t = Some (OpBin op) -> allowed inner (OpBin op) = true -> P_items inner false ts l -> P_items inner true ((t, s) :: ts) (IBin op s :: l).
Proof.
  intros inner t s op ts l Ho Ha (_ & IH2 & IH3 & IH4). split; [intros _; right; eapply binary_follows; eauto|].
    split; [discriminate|]. split; [cbn; lia|].
    intros n y rest st L S A O. cbn [app] in A. destruct (cons_app ts y rest) as (z & zs & Z). rewrite Z in A.
    assert (P : parses (read_item (knot n) inner true) ((t, s) :: z :: zs) (Some (IBin op s)) (z :: zs)).
    { eapply pa_bind; [apply pa_token|]. cbn [fst]. rewrite Ho, Ha. eapply pa_bind; [apply pa_consume; np|apply pa_ret]. }
    destruct (P st A O) as (st1 & E1 & A1 & S1). rewrite <- Z in A1.
    destruct (IH4 n y rest st1) as (st2 & R2 & A2 & S2); [cbn in L; lia|exact S|exact A1|now rewrite (sm_opts _ _ S1)|].
    exists st2. split; [eapply rd_item; eauto|]. split; [exact A2|eapply same_trans; eauto].
Qed.
Lemma c_is : forall t1 s1 t2 s2 k ts l, kw_tok "IS" t1 -> kw_tok (snd (is_form k)) t2 -> fst (is_form k) = false ->
    P_items false true ts l -> P_items false true ((t1, s1) :: (t2, s2) :: ts) (IPost (PIs k (join s2 s1)) :: l).
Proof.
  intros t1 s1 t2 s2 k ts l K1 K2 Kf (_ & _ & IH3 & IH4). split; [intros _; right; now apply (kw_follows o "IS")|].
    split; [discriminate|]. split; [cbn; lia|].
    intros n y rest st L S A O. cbn [app] in A. destruct (cons_app ts y rest) as (z & zs & Z). rewrite Z in A.
    assert (P : parses (read_item (knot n) false true) ((t1, s1) :: (t2, s2) :: z :: zs) (Some (IPost (PIs k (join s2 s1)))) (z :: zs)).
    { eapply pa_bind; [apply pa_token|]. cbn [fst]. rewrite (kw_operator o "IS" t1 true (Some OpIs) K1 eq_refl). cbn [allowed negb orb].
      eapply pa_bind; [|apply pa_ret]. eapply pa_bind; [now apply pa_consume_keyword|]. eapply pa_bind; [apply pa_token|]. cbn [fst].
      replace (is_kw t2 "NOT") with false by (symmetry; eapply (kw_is_not o); [exact K2|destruct k; reflexivity]).
      replace (kw_assoc is_kinds t2) with (Some (snd (is_form k), k)) by (destruct K2 as (v & -> & _); destruct k; try discriminate Kf; reflexivity).
      eapply pa_bind; [apply pa_consume; np|apply pa_ret]. }
    destruct (P st A O) as (st1 & E1 & A1 & S1). rewrite <- Z in A1.
    destruct (IH4 n y rest st1) as (st2 & R2 & A2 & S2); [cbn in L; lia|exact S|exact A1|now rewrite (sm_opts _ _ S1)|].
    exists st2. split; [eapply rd_item; eauto|]. split; [exact A2|eapply same_trans; eauto].
Qed.
Lemma c_is_not : forall t1 s1 t2 s2 t3 s3 k ts l, kw_tok "IS" t1 -> kw_tok "NOT" t2 -> kw_tok (snd (is_form k)) t3 -> fst (is_form k) = true ->
    P_items false true ts l -> P_items false true ((t1, s1) :: (t2, s2) :: (t3, s3) :: ts) (IPost (PIs k (join s3 s1)) :: l).
Proof.
  intros t1 s1 t2 s2 t3 s3 k ts l K1 K2 K3 Kf (_ & _ & IH3 & IH4). split; [intros _; right; now apply (kw_follows o "IS")|].
    split; [discriminate|]. split; [cbn; lia|].
    intros n y rest st L S A O. cbn [app] in A. destruct (cons_app ts y rest) as (z & zs & Z). rewrite Z in A.
    assert (P : parses (read_item (knot n) false true) ((t1, s1) :: (t2, s2) :: (t3, s3) :: z :: zs) (Some (IPost (PIs k (join s3 s1)))) (z :: zs)).
    { eapply pa_bind; [apply pa_token|]. cbn [fst]. rewrite (kw_operator o "IS" t1 true (Some OpIs) K1 eq_refl). cbn [allowed negb orb].
      eapply pa_bind; [|apply pa_ret]. eapply pa_bind; [now apply pa_consume_keyword|]. eapply pa_bind; [apply pa_token|]. cbn [fst].
      rewrite (kw_is o _ _ K2). eapply pa_bind; [apply pa_consume; np|]. eapply pa_bind; [apply pa_token|]. cbn [fst].
      replace (kw_assoc is_not_kinds t3) with (Some (snd (is_form k), k)) by (destruct K3 as (v & -> & _); destruct k; try discriminate Kf; reflexivity).
      eapply pa_bind; [apply pa_consume; np|apply pa_ret]. }
    destruct (P st A O) as (st1 & E1 & A1 & S1). rewrite <- Z in A1.
    destruct (IH4 n y rest st1) as (st2 & R2 & A2 & S2); [cbn in L; lia|exact S|exact A1|now rewrite (sm_opts _ _ S1)|].
    exists st2. split; [eapply rd_item; eauto|]. split; [exact A2|eapply same_trans; eauto].
Qed.
Lemma c_in : forall t1 s1 s2 ts s3 rhs ts' l, kw_tok "IN" t1 -> P_list true ts rhs -> P_items false true ts' l ->
    P_items false true ((t1, s1) :: (TLParen, s2) :: ts ++ (TRParen, s3) :: ts') (IPost (PIn rhs s1 false) :: l).
Proof.
  intros t1 s1 s2 ts s3 rhs ts' l K1 IHl (_ & _ & IH3 & IH4). split; [intros _; right; now apply (kw_follows o "IN")|].
    split; [discriminate|]. split; [cbn; rewrite app_length; cbn; lia|].
    intros n y rest st L S A O. cbn [app length] in A, L. rewrite app_length in L. cbn [length] in L. rewrite <- app_assoc in A. cbn [app] in A.
    destruct (cons_app ts' y rest) as (z & zs & Z). rewrite Z in A. destruct n as [|n]; [lia|].
    assert (P : parses (read_item (knot (Datatypes.S n)) false true) ((t1, s1) :: (TLParen, s2) :: ts ++ (TRParen, s3) :: z :: zs) (Some (IPost (PIn rhs s1 false))) (z :: zs)).
    { eapply pa_bind; [apply pa_token|]. cbn [fst]. rewrite (kw_operator o "IN" t1 true (Some OpIn) K1 eq_refl). cbn [allowed negb orb].
      eapply pa_bind; [now apply pa_consume_keyword|]. eapply pa_bind; [apply (pa_in_list o); [exact IHl|lia]|apply pa_ret]. }
    destruct (P st A O) as (st1 & E1 & A1 & S1). rewrite <- Z in A1.
    destruct (IH4 (Datatypes.S n) y rest st1) as (st2 & R2 & A2 & S2); [lia|exact S|exact A1|now rewrite (sm_opts _ _ S1)|].
    exists st2. split; [eapply rd_item; eauto|]. split; [exact A2|eapply same_trans; eauto].
Qed.
Lemma c_not_in : forall t0 s0 t1 s1 s2 ts s3 rhs ts' l, kw_tok "NOT" t0 -> kw_tok "IN" t1 -> P_list true ts rhs -> P_items false true ts' l ->
    P_items false true ((t0, s0) :: (t1, s1) :: (TLParen, s2) :: ts ++ (TRParen, s3) :: ts') (IPost (PIn rhs (join s1 s0) true) :: l).
Proof.
  intros t0 s0 t1 s1 s2 ts s3 rhs ts' l K0 K1 IHl (_ & _ & IH3 & IH4). split; [intros _; right; now apply (kw_follows o "NOT")|].
    split; [discriminate|]. split; [cbn; rewrite app_length; cbn; lia|].
    intros n y rest st L S A O. cbn [app length] in A, L. rewrite app_length in L. cbn [length] in L. rewrite <- app_assoc in A. cbn [app] in A.
    destruct (cons_app ts' y rest) as (z & zs & Z). rewrite Z in A. destruct n as [|n]; [lia|].
    assert (P : parses (read_item (knot (Datatypes.S n)) false true) ((t0, s0) :: (t1, s1) :: (TLParen, s2) :: ts ++ (TRParen, s3) :: z :: zs) (Some (IPost (PIn rhs (join s1 s0) true))) (z :: zs)).
    { eapply pa_bind; [apply pa_token|]. cbn [fst]. rewrite (kw_operator o "NOT" t0 true (Some OpNot) K0 eq_refl). cbn [allowed negb orb].
      eapply pa_bind; [now apply pa_consume_keyword|]. eapply pa_bind; [apply pa_token|]. cbn [fst]. rewrite (kw_is o _ _ K1).
      eapply pa_bind; [now apply pa_consume_keyword|]. eapply pa_bind; [apply (pa_in_list o); [exact IHl|lia]|apply pa_ret]. }
    destruct (P st A O) as (st1 & E1 & A1 & S1). rewrite <- Z in A1.
    destruct (IH4 (Datatypes.S n) y rest st1) as (st2 & R2 & A2 & S2); [lia|exact S|exact A1|now rewrite (sm_opts _ _ S1)|].
    exists st2. split; [eapply rd_item; eauto|]. split; [exact A2|eapply same_trans; eauto].
Qed.
Lemma c_not_like : forall t0 s0 t1 s1 ts l, kw_tok "NOT" t0 -> kw_tok "LIKE" t1 -> P_items false false ts l ->
    P_items false true ((t0, s0) :: (t1, s1) :: ts) (IBin NotLike (join s1 s0) :: l).
Proof.
  intros t0 s0 t1 s1 ts l K0 K1 (_ & _ & IH3 & IH4). split; [intros _; right; now apply (kw_follows o "NOT")|].
    split; [discriminate|]. split; [cbn; lia|].
    intros n y rest st L S A O. cbn [app] in A. destruct (cons_app ts y rest) as (z & zs & Z). rewrite Z in A.
    assert (P : parses (read_item (knot n) false true) ((t0, s0) :: (t1, s1) :: z :: zs) (Some (IBin NotLike (join s1 s0))) (z :: zs)).
    { eapply pa_bind; [apply pa_token|]. cbn [fst]. rewrite (kw_operator o "NOT" t0 true (Some OpNot) K0 eq_refl). cbn [allowed negb orb].
      eapply pa_bind; [now apply pa_consume_keyword|]. eapply pa_bind; [apply pa_token|]. cbn [fst].
      rewrite (kw_is_not o "LIKE" "IN" _ K1 eq_refl), (kw_is o _ _ K1). eapply pa_bind; [apply pa_consume; np|apply pa_ret]. }
    destruct (P st A O) as (st1 & E1 & A1 & S1). rewrite <- Z in A1.
    destruct (IH4 n y rest st1) as (st2 & R2 & A2 & S2); [cbn in L; lia|exact S|exact A1|now rewrite (sm_opts _ _ S1)|].
    exists st2. split; [eapply rd_item; eauto|]. split; [exact A2|eapply same_trans; eauto].
Qed.
Lemma c_expr : forall inner ts t, P_items inner false ts (frontier t) -> grouped t -> P_expr inner ts (to_expr t).
Proof.
  intros inner ts t (_ & IH2 & IH3 & IH4) G. destruct (IH2 eq_refl) as [L1 L2]. split; [exact L2|]. split; [exact L1|].
    intros n y rest L S st A O. destruct (IH4 n y rest st L S A O) as (st' & R & A' & S'). exists st'. split; [|auto].
    apply C09_grouped_is_result; auto. rewrite r_n_knot. lia.
Qed.

(** ** Lists in parentheses *)
Lemma c_list_query ts q : P_query ts q -> is_kw (hd_tok ts) "SELECT" = true -> P_list true ts [ESubquery q].
Proof.
  intros (H1 & H2 & H3) K. split; [auto|]. split; [cbn; lia|]. split; [destruct (hd_tok ts); try reflexivity; discriminate|].
  intros n m acc s rest L1 L2. destruct m as [|m]; [cbn in L2; lia|]. cbn [loop].
  destruct (cons_len ts H1) as (x & xs & Ex & Hx). rewrite Hx in K.
  assert (EL : parses (list_elem true n) (ts ++ (TRParen, s) :: rest) (ESubquery q) ((TRParen, s) :: rest)).
  { cbn [list_elem]. rewrite Ex at 1. cbn [app]. eapply pa_bind; [apply pa_token|]. rewrite K.
    change (x :: xs ++ (TRParen, s) :: rest) with ((x :: xs) ++ (TRParen, s) :: rest). rewrite <- Ex.
    eapply pa_bind; [apply (H3 n (TRParen, s) rest); [lia|reflexivity]|apply pa_ret]. }
  eapply pa_bind; [eapply pa_bind; [apply pa_recovered; [eapply pa_bind; [exact EL|apply pa_ret]|reflexivity]|];
      cbv zeta; eapply pa_bind; [now apply pa_skip_token_no|]; apply pa_ret|apply pa_ret].
Qed.
Lemma list_elem_expr b n ts e y rest : P_expr false ts e -> length ts <= n -> stops (fst y) = true ->
  parses (list_elem b n) (ts ++ y :: rest) e (y :: rest).
Proof. intros H L S. destruct b; cbn [list_elem]; (apply (pa_paren_expr o _ ts e n y rest H L); [now apply stops_stops_at|auto]). Qed.
Lemma c_list_one b ts e : P_expr false ts e -> P_list b ts [e].
Proof.
  intros IH. pose proof IH as (IH1 & IH2 & IH3). split; [auto|]. split; [cbn; lia|]. split; [now apply opens_rparen|].
  intros n m acc s rest L1 L2. destruct m as [|m]; [cbn in L2; lia|]. cbn [loop].
  eapply pa_bind; [eapply pa_bind; [apply pa_recovered; [eapply pa_bind; [apply (list_elem_expr b n ts e (TRParen, s)); auto; lia|apply pa_ret]|reflexivity]|];
      cbv zeta; eapply pa_bind; [now apply pa_skip_token_no|]; apply pa_ret|]. apply pa_ret.
Qed.
Lemma c_list_more b ts e s0 ts' l : P_expr false ts e -> P_list b ts' l -> P_list b (ts ++ (TComma, s0) :: ts') (e :: l).
Proof.
  intros IH (IH4 & IH5 & _ & IH6). pose proof IH as (IH1 & IH2 & IH3). unfold Grammar.P_list. rewrite app_length. cbn [length].
  split; [lia|]. split; [lia|]. split; [rewrite hd_app by auto; now apply opens_rparen|].
  intros n m acc s rest L1 L2. destruct m as [|m]; [lia|]. cbn [loop]. rewrite <- app_assoc. cbn [app].
  destruct (cons_app ts' (TRParen, s) rest) as (z & zs & Z). rewrite Z.
  eapply pa_bind.
  + eapply pa_bind; [apply pa_recovered; [eapply pa_bind; [apply (list_elem_expr b n ts e (TComma, s0)); auto; lia|apply pa_ret]|reflexivity]|].
    cbv zeta. eapply pa_bind; [now apply pa_skip_token|]. apply pa_ret.
  + cbn beta iota. rewrite <- Z. replace (acc ++ e :: l) with ((acc ++ [e]) ++ l) by now rewrite <- app_assoc. apply (IH6 n); auto; lia.
Qed.
End Cases.
