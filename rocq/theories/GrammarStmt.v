(** [parse_statements] reads what the grammar of [ScriptSpec.v] generates. *)
From Verif Require Export ScriptSpec DdlProc.
Local Open Scope string_scope.
Local Open Scope list_scope.

(** ** Statements *)
(** The first token is none of the words of [F]. *)
Ltac not_words F us := repeat match goal with |- context[is_kw (hd_tok us) ?k] => rewrite (F k eq_refl) end.
Definition P_stmt (o : reading) (pm k : bool) (ts : tks) (x : stmt) : Prop :=
  heads stmt_words ts /\ reads_from_stdin x = false /\
  forall n d y rest, delim_tok d -> length ts < n -> from 11 y = true -> (k = true -> fst y = d \/ fst y = TEof) ->
    reads o d pm (parse_statement (knot n)) (ts ++ y :: rest) (Some x) (y :: rest).
Ltac one_word K := let d := fresh "d" in let y := fresh "y" in
  split; [eapply heads_kw; [exact K|cbn; tauto]|]; split; [reflexivity|];
  intros n d y rest De L F Ky; cbn [app]; (eapply rd_bind; [apply rd_token|]); cbn [fst]; kwt K.
Fixpoint query_not_stdin o ts q (H : query_is o ts q) {struct H} : reads_from_stdin q = false :=
  match H with
  | qu_one _ b ts q B => bottom_not_stdin o b ts q B
  | qu_union _ _ _ _ _ _ _ _ _ _ _ _ _ _ _ _ => eq_refl
  end
with bottom_not_stdin o b ts q (H : bottom_is o b ts q) {struct H} : reads_from_stdin q = false :=
  match H with
  | bt_select _ _ _ _ _ => eq_refl
  | bt_paren _ _ ts _ q Q => query_not_stdin o ts q Q
  end.
Definition P_block (o : reading) (pm : bool) (ts : tks) (b : with_block stmt) : Prop :=
  0 < length ts /\
  forall n d us, delim_tok d -> us <> [] -> length ts < n -> reads o d pm (parse_with_block (knot (S n))) (ts ++ us) b us.
Definition P_blocks (o : reading) (pm : bool) (ts : tks) (l : list (with_block stmt)) : Prop :=
  0 < length ts /\
  forall n d us m acc, delim_tok d -> us <> [] -> tok_eqb (hd_tok us) TComma = false -> length ts < n -> length ts < m ->
  reads o d pm (loop m (fun l : list (with_block stmt) =>
            a <- parse_with_block (knot (S n)) ;;
            c <- skip_token TComma ;;
            match c with Some _ => Ret (inl (l ++ [a])) | None => Ret (inr (l ++ [a])) end) acc) (ts ++ us) (acc ++ l) us.
Lemma with_allowed_data x : data_statement x -> with_allowed x = true.
Proof. now destruct x. Qed.
(** *** Lists of statements *)
Notation list_ends := [W "END"; W "ELSE"; W "ELSEIF"; W "WHEN"; W "EXCEPTION"].
Definition list_follow (pm c : bool) (us : tks) : Prop :=
  heads list_ends us /\ (c = true -> is_kw (hd_tok us) "EXCEPTION" = false) /\ (pm = false -> c = false -> is_kw (hd_tok us) "END" = false).
Definition list_body (r : recs) := (fun l : list stmt =>
    skip_tokens (r_n r) TSemiColon ;;;
    s <- r_stmt r ;;
    match s with
    | None => Ret (l, Break)
    | Some v =>
        let l := l ++ [v] in
        t <- token ;;
        if negb (tok_eqb t TSemiColon) then Ret (l, Break)
        else if reads_from_stdin v then
          '(d, sp) <- perf OStdin ;;
          Ret (l ++ [SStdin (mkStdin d sp)], Continue)
        else consume_token TSemiColon ;;; Ret (l, Continue)
    end).
Definition P_list (o : reading) (pm c : bool) (ts : tks) (l : list stmt) : Prop :=
  forall n us m acc, list_follow pm c us -> S (length ts) < n -> length ts < m ->
    reads o TSemiColon pm (loop_acc m (list_body (knot n)) acc) (ts ++ us) (acc ++ l, true) us.
Lemma pb_semicolons o ts us n : semicolons ts -> us <> [] -> tok_eqb (hd_tok us) TSemiColon = false -> length ts < n ->
  parses o (skip_tokens n TSemiColon) (ts ++ us) tt us.
Proof.
  intros F U H. unfold skip_tokens. revert n. induction F as [|[t s] ts X F IH]; intros n L; (destruct n as [|n]; [cbn in L; lia|]); cbn [loop app].
  - eapply (pa_bind o _ _ _ _ _ (inr tt)); [|apply pa_ret]. eapply pa_bind; [apply pb_skip_tok_no; assumption|]. apply pa_ret.
  - cbn [fst] in X. subst t. eapply (pa_bind o _ _ _ _ _ (inl tt) (ts ++ us)).
    + eapply pa_bind; [apply pb_skip_tok; [ne|reflexivity]|]. apply pa_ret.
    + apply IH. cbn in L. lia.
Qed.
Lemma rd_no_stmt o d pm us n : heads list_ends us -> (pm = false -> is_kw (hd_tok us) "END" = false) -> reads o d pm (parse_statement (knot n)) us None us.
Proof.
  intros H E. pose proof (heads_ne _ _ H) as U. eapply rd_bind; [now apply rb_token|].
  assert (F : forall k, existsb (String.eqb k) ["CREATE"; "DROP"; "SELECT"; "DELETE"; "INSERT"; "REPLACE"; "UPDATE"; "SET"; "SIGNAL"; "BEGIN"; "START"; "COMMIT"; "IF"; "RETURN"; "ALTER"; "CASE"; "COPY"; "DO"; "TRUNCATE"; "RENAME"; "WITH"] = true -> is_kw (hd_tok us) k = false).
  { intros k I. apply existsb_exists in I as (kx & I & Ex). apply String.eqb_eq in Ex as <-. cbn [In] in I. repeat (destruct I as [<-|I]; [hd_tac H|]). destruct I. }
  assert (P : tok_eqb (hd_tok us) TLParen = false) by hd_tac H.
  rewrite P. not_words F us. cbn [orb].
  destruct (is_kw (hd_tok us) "END") eqn:K; [|apply rd_ret]. eapply rd_bind; [apply rd_permit|]. destruct pm; [apply rd_ret|]. specialize (E eq_refl). discriminate.
Qed.
Lemma r_stmt_knot n : r_stmt (knot (S n)) = parse_statement (knot n).
Proof. reflexivity. Qed.
Lemma stmt_len o pm k ts x : P_stmt o pm k ts x -> 0 < length ts.
Proof. intros ((N & _) & _). destruct ts; [congruence|cbn; lia]. Qed.
Lemma stmt_not_semi o pm k ts x us : P_stmt o pm k ts x -> ts ++ us <> [] /\ tok_eqb (hd_tok (ts ++ us)) TSemiColon = false.
Proof. intros (H & _). split; [destruct ts; [now destruct H|discriminate]|]. apply (heads_pre _ _ us) in H. hd_tac H. Qed.
Lemma list_end o pm ds : semicolons ds -> P_list o pm false ds [].
Proof.
  intros S n us m acc (H & _ & E) L Lm. destruct m as [|m]; [lia|]. destruct n as [|n]; [lia|]. pose proof (heads_ne _ _ H) as U.
  cbn [loop_acc]. rewrite app_nil_r. eapply (rd_try o _ pm _ _ _ _ _ (acc, Break)); [|apply rd_ret].
  eapply rd_bind; [apply rd_parses, pb_semicolons; [exact S|exact U|hd_tac H|rewrite r_n_knot; lia]|].
  eapply (rd_bind o _ pm _ _ _ _ _ None us); [|apply rd_ret]. rewrite r_stmt_knot. apply rd_no_stmt; [exact H|]. intros P. now apply E.
Qed.
Lemma list_stmt o pm c k ds ts x s us l : semicolons ds -> P_stmt o pm k ts x -> P_list o pm c us l -> P_list o pm c (ds ++ ts ++ (TSemiColon, s) :: us) (x :: l).
Proof.
  intros S X IH n vs m acc F L Lm. destruct m as [|m]; [lia|]. destruct n as [|n]; [lia|]. rewrite !app_length in L, Lm. cbn [length] in L, Lm. norm.
  destruct (stmt_not_semi o pm k ts x ((TSemiColon, s) :: us ++ vs) X) as [U N]. pose proof (heads_ne _ _ (proj1 F)) as Uv. pose proof (stmt_len _ _ _ _ _ X) as X0. destruct X as (_ & X2 & X3).
  cbn [loop_acc]. eapply (rd_try o _ pm _ _ _ _ _ (acc ++ [x], Continue) (us ++ vs)).
  - eapply rd_bind; [apply rd_parses, pb_semicolons; [exact S|exact U|exact N|rewrite r_n_knot; lia]|].
    eapply (rd_bind o _ pm _ _ _ _ _ (Some x) ((TSemiColon, s) :: us ++ vs)).
    { rewrite r_stmt_knot. apply X3; [now left|lia|reflexivity|intros _; now left]. }
    cbn iota zeta. eapply rd_bind; [apply rd_token|]. cbn [fst tok_eqb tok_tag Nat.eqb negb]. rewrite X2.
    eapply rd_bind; [apply rd_parses, pb_tok; [ne|reflexivity]|apply rd_ret].
  - cbn iota. replace (acc ++ x :: l) with ((acc ++ [x]) ++ l) by now rewrite <- app_assoc. apply IH; [exact F|lia|lia].
Qed.
Lemma list_last o pm ds ts x : semicolons ds -> P_stmt o pm false ts x -> P_list o pm true (ds ++ ts) [x].
Proof.
  intros S X n us m acc (H & E & _) L Lm. destruct m as [|m]; [lia|]. destruct n as [|n]; [lia|]. rewrite app_length in L, Lm. norm. specialize (E eq_refl).
  destruct (stmt_not_semi o pm false ts x us X) as [U N]. pose proof (stmt_len _ _ _ _ _ X) as X0. destruct X as (_ & X2 & X3).
  destruct us as [|y us]; [now destruct H|]. cbn [loop_acc]. eapply (rd_try o _ pm _ _ _ _ _ (acc ++ [x], Break)); [|apply rd_ret].
  eapply rd_bind; [apply rd_parses, pb_semicolons; [exact S|exact U|exact N|rewrite r_n_knot; lia]|].
  eapply (rd_bind o _ pm _ _ _ _ _ (Some x) (y :: us)).
  { rewrite r_stmt_knot. apply X3; [now left|lia| |discriminate]. cbn [hd_tok] in E. clear - H E. destruct H as (_ & p & I & H). cbn [hd_tok] in H. unfold from.
    cbn [In W] in I. repeat (destruct I as [<-|I]; [destruct H as [H|(v & v' & w & H' & H)]; [|injection H' as <- <-]; rewrite H in *; first [reflexivity|discriminate]|]). destruct I. }
  cbn iota zeta. eapply rd_bind; [apply rd_token|]. replace (tok_eqb (fst y) TSemiColon) with false by (symmetry; change (fst y) with (hd_tok (y :: us)); hd_tac H). apply rd_ret.
Qed.
Lemma rd_list o d pm c ts l us n : P_list o pm c ts l -> list_follow pm c us -> S (length ts) < n -> reads o d pm (parse_statement_list (knot n)) (ts ++ us) (l, true) us.
Proof. intros P F L. unfold parse_statement_list. apply rd_with_delim. apply (P n us (r_n (knot n)) []); [exact F|exact L|rewrite r_n_knot; lia]. Qed.
Lemma rd_list_local o d pm c ts l us n : P_list o pm c ts l -> list_follow pm c us -> S (length ts) < n -> reads o d pm (parse_statement_list_local (knot n)) (ts ++ us) l us.
Proof. intros P F L. eapply (rd_bind o d pm _ _ _ _ _ (l, true) us); [now apply (rd_list o d pm c)|apply rd_ret]. Qed.
Lemma follow_word o pm c k t s us : kw_tok o k t -> In k ["ELSE"; "ELSEIF"; "WHEN"] -> list_follow pm c ((t, s) :: us).
Proof.
  intros K I. split; [eapply heads_kw; [exact K|cbn [In] in I; destruct I as [<-|[<-|[<-|[]]]]; cbn; tauto]|].
  destruct K as (v & -> & _). cbn [hd_tok fst]. cbn [In] in I. destruct I as [<-|[<-|[<-|[]]]]; split; reflexivity.
Qed.
Lemma follow_end pm c us : heads [W "END"] us -> pm = true \/ c = true -> list_follow pm c us.
Proof.
  intros H P. split; [eapply heads_sub; [exact H|intros y [<-|[]]; now left]|]. split; [intros _; hd_tac H|]. intros -> ->. destruct P; discriminate.
Qed.
(** *** IF *)
Definition if_rest (r : recs) (m : nat) (x : list (if_condition expr stmt) * bool) : prog (list (if_condition expr stmt) * option (span * list stmt) * bool) :=
      '((conds, _), ok) <-
          loop_acc m (fun x : list (if_condition expr stmt) * bool =>
            let (l, first) := x in
            if first : bool then c <- parse_if_condition r None ;; Ret ((l ++ [c], false), Continue)
            else
              e <- skip_keyword "ELSEIF" ;;
              match e with
              | Some s => c <- parse_if_condition r (Some s) ;; Ret ((l ++ [c], false), Continue)
              | None => Ret ((l, false), Break)
              end) x ;;
       if ok : bool then '(e, ok) <- parse_else r ;; Ret ((conds, e), ok)
       else Ret ((conds, None), false).
Definition P_conditions (o : reading) (pm : bool) (s0 : option span) (ts : tks) (l : list (if_condition expr stmt)) (e : option (span * list stmt)) : Prop :=
  ts <> [] /\
  forall n d us m acc, heads [W "END"] us -> S (length ts) < n -> length ts <= m ->
    exists c vs, reads o d pm (parse_if_condition (knot n) s0) (ts ++ us) c vs /\
      reads o d pm (if_rest (knot n) m (acc ++ [c], false)) vs (acc ++ l, e, true) us.
Lemma rd_condition o d pm s0 es e t s c ts l us n : expr_is o false es e -> kw_tok o "THEN" t -> P_list o pm c ts l -> list_follow pm c us ->
  length es + S (S (length ts)) < n ->
  reads o d pm (parse_if_condition (knot n) s0) (es ++ (t, s) :: ts ++ us) (mkIfCondition s0 e s l) us.
Proof.
  intros E K P F L. eapply rd_bind; [apply rd_parses, pb_expr; [exact E|discriminate|pose proof K as (? & -> & _); reflexivity|lia]|].
  pose proof (heads_ne _ _ (proj1 F)) as U. eapply rd_bind; [apply rd_parses, pb_kw; [exact K|ne]|].
  eapply rd_bind; [apply (rd_list_local o d pm c); [exact P|exact F|lia]|apply rd_ret].
Qed.
Lemma rd_try_bind o d pm A B C (p : prog A) (k : option A -> prog B) (q : B -> prog C) ts a ts1 b ts2 :
  reads o d pm p ts a ts1 -> reads o d pm (x <- k (Some a) ;; q x) ts1 b ts2 -> reads o d pm (x <- Try p k ;; q x) ts b ts2.
Proof.
  intros H1 H2 st H O D P. destruct (H1 st H O D P) as (st1 & E1 & A1 & S1).
  destruct (H2 st1 A1) as (st2 & E2 & A2 & S2); [now rewrite (sm_opts _ _ S1)|now rewrite (sm_delim _ _ S1)|now rewrite (sm_permit _ _ S1)|].
  exists st2. rewrite run_bind, run_try, E1. rewrite run_bind in E2. split; [exact E2|]. split; [exact A2|eapply same_trans; eauto].
Qed.
Lemma rd_else_none o d pm us n : us <> [] -> is_kw (hd_tok us) "ELSE" = false -> reads o d pm (parse_else (knot n)) us (None, true) us.
Proof.
  intros U E. eapply (rd_try o d pm _ _ _ _ _ None us); [|apply rd_ret]. eapply (rd_bind o d pm _ _ _ _ _ None us); [now apply rd_parses, pb_skip_no|apply rd_ret].
Qed.
Lemma rd_else_some o d pm c ts l us n t s : kw_tok o "ELSE" t -> P_list o pm c ts l -> list_follow pm c us -> S (length ts) < n ->
  reads o d pm (parse_else (knot n)) ((t, s) :: ts ++ us) (Some (s, l), true) us.
Proof.
  intros K P F L. pose proof (heads_ne _ _ (proj1 F)) as U. eapply (rd_try o d pm _ _ _ _ _ (Some (s, l)) us); [|apply rd_ret].
  eapply (rd_bind o d pm _ _ _ _ _ (Some s) (ts ++ us)); [apply rd_parses, pb_skip; [exact K|ne]|]. cbn iota.
  eapply rd_bind; [apply (rd_list_local o d pm c); [exact P|exact F|exact L]|apply rd_ret].
Qed.
Lemma if_done o d pm n m acc e us vs : us <> [] -> is_kw (hd_tok us) "ELSEIF" = false -> reads o d pm (parse_else (knot n)) us (e, true) vs ->
  reads o d pm (if_rest (knot n) (S m) (acc, false)) us (acc, e, true) vs.
Proof.
  intros U E R. eapply (rd_bind o d pm _ _ _ _ _ (acc, false, true) us).
  - cbn [loop_acc]. eapply (rd_try o d pm _ _ _ _ _ (acc, false, Break) us); [|apply rd_ret]. cbn iota.
    eapply (rd_bind o d pm _ _ _ _ _ None us); [now apply rd_parses, pb_skip_no|apply rd_ret].
  - cbn iota. eapply rd_bind; [exact R|apply rd_ret].
Qed.
Lemma if_first o d pm n m acc c ts vs us x : reads o d pm (parse_if_condition (knot n) None) ts c vs -> reads o d pm (if_rest (knot n) m (acc ++ [c], false)) vs x us ->
  reads o d pm (if_rest (knot n) (S m) (acc, true)) ts x us.
Proof.
  intros R1 R2. unfold if_rest. cbn [loop_acc]. eapply (rd_try_bind o d pm _ _ _ _ _ _ _ ((acc ++ [c], false), Continue) vs); [|exact R2].
  cbn iota. eapply rd_bind; [exact R1|apply rd_ret].
Qed.
Lemma if_next o d pm n m acc c t s ts vs us x : kw_tok o "ELSEIF" t -> ts <> [] -> reads o d pm (parse_if_condition (knot n) (Some s)) ts c vs -> reads o d pm (if_rest (knot n) m (acc ++ [c], false)) vs x us ->
  reads o d pm (if_rest (knot n) (S m) (acc, false)) ((t, s) :: ts) x us.
Proof.
  intros K N R1 R2. unfold if_rest. cbn [loop_acc]. eapply (rd_try_bind o d pm _ _ _ _ _ _ _ ((acc ++ [c], false), Continue) vs); [|exact R2].
  cbn iota. eapply (rd_bind o d pm _ _ _ _ _ (Some s) ts); [apply rd_parses, pb_skip; [exact K|exact N]|]. cbn iota. eapply rd_bind; [exact R1|apply rd_ret].
Qed.
(** *** CASE *)
Definition case_rest (r : recs) (m : nat) (l : list (when_statement expr stmt)) : prog (list (when_statement expr stmt) * option (span * list stmt) * bool) :=
      '(whens, ok) <-
          loop_acc m (fun l : list (when_statement expr stmt) =>
            w <- parse_when_statement r ;;
            t <- token ;;
            Ret (l ++ [w], if negb (is_kw t "WHEN") then Break else Continue)) l ;;
       if ok : bool then '(e, ok) <- parse_else r ;; Ret ((whens, e), ok)
       else Ret ((whens, None), false).
Definition P_cases (o : reading) (pm : bool) (ts : tks) (l : list (when_statement expr stmt)) (e : option (span * list stmt)) : Prop :=
  heads [W "WHEN"] ts /\
  forall n d us m acc, heads [W "END"] us -> S (length ts) < n -> length ts <= m -> reads o d pm (case_rest (knot n) m acc) (ts ++ us) (acc ++ l, e, true) us.
Lemma rd_when o d pm t0 s0 es e t s c ts l us n : kw_tok o "WHEN" t0 -> expr_is o false es e -> kw_tok o "THEN" t -> P_list o pm c ts l -> list_follow pm c us ->
  length es + S (S (length ts)) < n ->
  reads o d pm (parse_when_statement (knot n)) ((t0, s0) :: es ++ (t, s) :: ts ++ us) (mkWhenStatement s0 e s l) us.
Proof.
  intros K0 E K P F L. pose proof (heads_ne _ _ (proj1 F)) as U. eapply rd_bind; [apply rd_parses, pb_kw; [exact K0|ne]|].
  eapply rd_bind; [apply rd_parses, pb_expr; [exact E|discriminate|pose proof K as (? & -> & _); reflexivity|lia]|].
  eapply rd_bind; [apply rd_parses, pb_kw; [exact K|ne]|].
  eapply rd_bind; [apply (rd_list_local o d pm c); [exact P|exact F|lia]|apply rd_ret].
Qed.
Lemma case_done o d pm n m acc w ts vs e us : reads o d pm (parse_when_statement (knot n)) ts w vs -> vs <> [] -> is_kw (hd_tok vs) "WHEN" = false ->
  reads o d pm (parse_else (knot n)) vs (e, true) us -> reads o d pm (case_rest (knot n) (S m) acc) ts (acc ++ [w], e, true) us.
Proof.
  intros R1 N W R2. unfold case_rest. cbn [loop_acc]. eapply (rd_try_bind o d pm _ _ _ _ _ _ _ (acc ++ [w], Break) vs).
  - eapply rd_bind; [exact R1|]. eapply rd_bind; [now apply rb_token|]. rewrite W. apply rd_ret.
  - cbn iota. eapply rd_bind; [apply rd_ret|]. cbn iota. eapply rd_bind; [exact R2|apply rd_ret].
Qed.
Lemma case_next o d pm n m acc w ts vs x us : reads o d pm (parse_when_statement (knot n)) ts w vs -> vs <> [] -> is_kw (hd_tok vs) "WHEN" = true ->
  reads o d pm (case_rest (knot n) m (acc ++ [w])) vs x us -> reads o d pm (case_rest (knot n) (S m) acc) ts x us.
Proof.
  intros R1 N W R2. unfold case_rest. cbn [loop_acc]. eapply (rd_try_bind o d pm _ _ _ _ _ _ _ (acc ++ [w], Continue) vs); [|exact R2].
  eapply rd_bind; [exact R1|]. eapply rd_bind; [now apply rb_token|]. rewrite W. apply rd_ret.
Qed.
Lemma pb_case_value o ts x us n : case_value_is o ts x -> heads [W "WHEN"] us -> length ts < n ->
  parses o (t <- token ;; if negb (is_kw t "WHEN") then e <- r_expr (knot n) false ;; Ret (Some e) else Ret None) (ts ++ us) x us.
Proof.
  intros [|ts' e E] H L; pose proof (heads_ne _ _ H) as U.
  - cbn [app]. eapply pa_bind; [now apply pb_token|]. replace (is_kw (hd_tok us) "WHEN") with true by (symmetry; hd_tac H). apply pa_ret.
  - pose proof (expr_parses o false ts' e E) as (V2 & V1 & _).
    eapply pa_bind; [apply pb_token; ne|]. rewrite hd_app by exact V1.
    replace (is_kw (hd_tok ts') "WHEN") with false by (symmetry; apply opens_kw; [exact V2|right; now left]). cbn [negb].
    eapply pa_bind; [apply pb_expr; [exact E|exact U|hd_tac H|exact L]|apply pa_ret].
Qed.
(** *** BEGIN ... END *)
Definition P_body (o : reading) (pm : bool) (ts : tks) (l : list stmt) : Prop :=
  heads [W "BEGIN"] ts /\
  forall n d us, us <> [] -> length ts < n -> reads o d pm (parse_block (knot n)) (ts ++ us) l us.
Lemma pb_handlers o ts l us n m : many (handler_is o) ts l -> heads [W "END"] us -> length ts < n -> length ts < m ->
  parses o (loop m (fun _ : unit =>
    w <- skip_keyword "WHEN" ;;
    match w with
    | None => Ret (inr tt)
    | Some _ =>
        consume_plain_identifier ;;;
        consume_keyword "THEN" ;;;
        r_expr (knot n) true ;;;
        consume_token TSemiColon ;;;
        Ret (inl tt)
    end) tt) (ts ++ us) tt us.
Proof.
  intros M H L. pose proof (heads_ne _ _ H) as U. revert m. induction M as [|ts1 a us1 l P M IH]; intros m Lm; (destruct m as [|m]; [lia|]); cbn [loop app].
  - eapply (pa_bind o _ _ _ _ _ (inr tt)); [|apply pa_ret]. eapply pa_bind; [apply pb_skip_no; [exact U|hd_tac H]|]. apply pa_ret.
  - destruct P as [t s t1 v s1 t2 s2 ts e s3 K N K2 E]. norm. repeat (rewrite ?app_length in *; cbn [length] in *).
    eapply (pa_bind o _ _ _ _ _ (inl tt) (us1 ++ us)).
    + eapply pa_bind; [apply pb_skip; [exact K|discriminate]|]. cbn iota. eapply pa_bind; [apply pb_name; [exact N|discriminate]|].
      eapply pa_bind; [apply pb_kw; [exact K2|ne]|]. eapply pa_bind; [apply pb_expr; [exact E|discriminate|reflexivity|lia]|].
      eapply pa_bind; [apply pb_tok; [ne|reflexivity]|apply pa_ret].
    + apply IH; lia.
Qed.
Lemma rd_begin_list o d pm c t s ts l us n : kw_tok o "BEGIN" t -> P_list o pm c ts l -> list_follow pm c us -> is_kw (hd_tok us) "END" || is_kw (hd_tok us) "EXCEPTION" = true -> S (length ts) < n ->
  forall B (k : list stmt -> prog B) b vs, reads o d pm (k l) us b vs ->
  reads o d pm (consume_keyword "BEGIN" ;;; l <- recovered_acc "'END' | 'EXCEPTION'" (fun t => is_kw t "END" || is_kw t "EXCEPTION") (parse_statement_list (knot n)) ;; k l) ((t, s) :: ts ++ us) b vs.
Proof.
  intros K P F E L B k b vs R. pose proof (heads_ne _ _ (proj1 F)) as U. eapply rd_bind; [apply rd_parses, pb_kw; [exact K|ne]|].
  eapply rd_bind; [|exact R]. apply rd_recovered_acc; [now apply (rd_list o d pm c)|exact U|exact E].
Qed.
Lemma body_plain o pm t s c ts l t1 s1 : kw_tok o "BEGIN" t -> P_list o pm c ts l -> pm = true \/ c = true -> kw_tok o "END" t1 ->
  P_body o pm ((t, s) :: ts ++ [(t1, s1)]) l.
Proof.
  intros K P C K1. split; [eapply heads_kw; [exact K|now left]|]. intros n d us U L. norm. cbn [length] in L. rewrite app_length in L. cbn [length] in L.
  assert (H : heads [W "END"] ((t1, s1) :: us)) by (eapply heads_kw; [exact K1|now left]).
  eapply (rd_begin_list o d pm c); [exact K|exact P|now apply follow_end|hd_tac H|lia|].
  eapply rd_bind; [apply rd_parses, pb_skip_no; [discriminate|hd_tac H]|]. eapply rd_bind; [apply rd_ret|].
  eapply rd_bind; [apply rd_parses, pb_kw; [exact K1|exact U]|apply rd_ret].
Qed.
Lemma body_exception o pm t s ts l t1 s1 hs us0 t2 s2 : kw_tok o "BEGIN" t -> P_list o pm false ts l -> kw_tok o "EXCEPTION" t1 -> many (handler_is o) hs us0 -> kw_tok o "END" t2 ->
  P_body o pm ((t, s) :: ts ++ (t1, s1) :: hs ++ [(t2, s2)]) l.
Proof.
  intros K P K1 M K2. split; [eapply heads_kw; [exact K|now left]|]. intros n d us U L. norm. repeat (rewrite ?app_length in L; cbn [length] in L).
  assert (H : heads [W "END"] ((t2, s2) :: us)) by (eapply heads_kw; [exact K2|now left]).
  assert (H1 : heads [W "EXCEPTION"] ((t1, s1) :: hs ++ (t2, s2) :: us)) by (eapply heads_kw; [exact K1|now left]).
  eapply (rd_begin_list o d pm false); [exact K|exact P| |hd_tac H1|lia|].
  { split; [eapply heads_sub; [exact H1|intros y [<-|[]]; cbn; tauto]|]. split; [discriminate|intros _ _; hd_tac H1]. }
  eapply rd_bind; [apply rd_parses, pb_skip; [exact K1|ne]|]. cbn iota.
  eapply rd_bind; [apply rd_parses, (pb_handlers o hs us0); [exact M|exact H|lia|rewrite r_n_knot; lia]|].
  eapply rd_bind; [apply rd_parses, pb_kw; [exact K2|exact U]|apply rd_ret].
Qed.
(** *** All of them *)
Lemma first_stmt : incl first_words stmt_words.
Proof. intros y Y. unfold first_words in Y. cbn in Y |- *. tauto. Qed.
Lemma stmt_body : incl stmt_words body_words.
Proof. intros y Y. cbn in Y |- *. tauto. Qed.
Lemma ends_body : incl ends body_words.
Proof. intros y Y. cbn in Y |- *. tauto. Qed.
Lemma begins_stdin o pm ts x : heads first_words ts -> (forall n us, heads ends us -> length ts < n -> parses o (parse_statement (knot n)) (ts ++ us) (Some x) us) ->
  reads_from_stdin x = false -> P_stmt o pm false ts x.
Proof.
  intros H P R. split; [eapply heads_sub; [exact H|exact first_stmt]|]. split; [exact R|].
  intros n d y rest De L F _. apply rd_parses. apply P; [now apply heads_end|exact L].
Qed.
Lemma delim_heads d y (rest : tks) : fst y = d \/ fst y = TEof -> heads [d; TEof] (y :: rest).
Proof. intros H. split; [discriminate|]. destruct H as [H|H]; cbn [hd_tok]; rewrite H; eexists; (split; [|left; reflexivity]); cbn; tauto. Qed.
Lemma create_first o hs s l us : create_is o hs s l -> heads [W "CREATE"] (hs ++ us).
Proof. intros [t s' os l' K M]. eapply heads_kw; [exact K|now left]. Qed.
(** A statement that begins with CREATE. *)
Lemma rd_create_stmt o d pm ts us x n vs : heads [W "CREATE"] ts -> reads o d pm (parse_create (knot n)) (ts ++ us) x vs ->
  reads o d pm (parse_statement (knot n)) (ts ++ us) (Some x) vs.
Proof.
  intros H R. apply (heads_pre _ _ us) in H. eapply rd_bind; [apply rb_token; now apply heads_ne in H|].
  replace (is_kw (hd_tok (ts ++ us)) "CREATE") with true by (symmetry; hd_tac H). eapply (rd_bind o d pm _ _ _ _ _ x); [exact R|apply rd_ret].
Qed.
Scheme stmt_m := Minimality for stmt_is Sort Prop
  with blocks_m := Minimality for blocks_are Sort Prop
  with block_m := Minimality for block_is Sort Prop
  with conditions_m := Minimality for conditions_are Sort Prop
  with cases_m := Minimality for cases_are Sort Prop
  with body_m := Minimality for body_is Sort Prop
  with list_m := Minimality for statements_are Sort Prop.
Combined Scheme stmts_m from stmt_m, blocks_m, block_m, conditions_m, cases_m, body_m, list_m.
Lemma stmts_read o : (forall pm k ts x, stmt_is o pm k ts x -> P_stmt o pm k ts x) /\ (forall pm ts l, blocks_are o pm ts l -> P_blocks o pm ts l) /\ (forall pm ts b, block_is o pm ts b -> P_block o pm ts b) /\
  (forall pm s0 ts l e, conditions_are o pm s0 ts l e -> P_conditions o pm s0 ts l e) /\ (forall pm ts l e, cases_are o pm ts l e -> P_cases o pm ts l e) /\
  (forall pm ts l, body_is o pm ts l -> P_body o pm ts l) /\ (forall pm c ts l, statements_are o pm c ts l -> P_list o pm c ts l).
Proof.
  apply (stmts_m o (P_stmt o) (P_blocks o) (P_block o) (P_conditions o) (P_cases o) (P_body o) (P_list o)).
  - intros pm ts q Q. pose proof (query_parses _ _ _ Q) as (H1 & H2 & H3). split; [|split; [now apply (query_not_stdin o ts)|]].
    + split; [destruct ts; [cbn in H1; lia|discriminate]|]. destruct H2 as [H2|H2]; [|exists TLParen; split; [now left|now left]].
      destruct (hd_tok ts); try discriminate. destruct k as [| |k]; try discriminate.
      cbn [is_kw kw_eqb] in H2. apply String.eqb_eq in H2 as ->. exists (W "SELECT"). split; [cbn; tauto|right; exists t, [], "SELECT"; split; reflexivity].
    + intros n d y rest De L F _. apply rd_parses, query_statement; auto; [now apply query_parses|now (apply (from_le 10 11); [|lia])].
  - intros pm ts x X. destruct (simple_parses o ts x X) as (H & R & P). now apply begins_stdin.
  - intros pm ts x X. pose proof (define_head o ts x X) as H. split; [eapply heads_sub; [exact H|intros y [<-|[]]; cbn; tauto]|]. split; [destruct X as [? ? X|? ? X|? ? X]; now destruct X|].
    intros n d y rest De L F _. apply rd_create_stmt; [exact H|]. apply rd_parses, pb_define; [exact X|now apply heads_end|exact L].
  - intros pm ts x X. assert (H : heads [W "CREATE"] ts) by (destruct X as [hs s l t s1 is i ns q p1 ds dl p2 os ol C]; now apply (create_first o hs s l)).
    split; [eapply heads_sub; [exact H|intros y [<-|[]]; cbn; tauto]|]. split; [now destruct X|].
    intros n d y rest De L F Ky. apply rd_create_stmt; [exact H|]. apply pb_table; [exact X|exact De|apply delim_heads; now apply Ky|exact L].
  - intros pm ts x X. assert (H : heads [W "ALTER"] ts) by (destruct X as [t s os on gs ig t1 s1 is i ns q ts' l K]; eapply heads_kw; [exact K|now left]).
    split; [eapply heads_sub; [exact H|intros y [<-|[]]; cbn; tauto]|]. split; [now destruct X|].
    intros n d y rest De L F Ky. apply (heads_pre _ _ (y :: rest)) in H. eapply rd_bind; [apply rb_token; ne|].
    assert (E : forall k, existsb (String.eqb k) ["CREATE"; "DROP"; "SELECT"; "DELETE"; "INSERT"; "REPLACE"; "UPDATE"; "SET"; "SIGNAL"; "BEGIN"; "END"; "START"; "COMMIT"; "IF"; "RETURN"] = true -> is_kw (hd_tok (ts ++ y :: rest)) k = false).
    { intros k I. apply existsb_exists in I as (kx & I & Ex). apply String.eqb_eq in Ex as <-. cbn [In] in I. repeat (destruct I as [<-|I]; [hd_tac H|]). destruct I. }
    not_words E (ts ++ y :: rest). replace (tok_eqb (hd_tok (ts ++ y :: rest)) TLParen) with false by (symmetry; hd_tac H). cbn [orb].
    replace (is_kw (hd_tok (ts ++ y :: rest)) "ALTER") with true by (symmetry; hd_tac H).
    eapply (rd_bind o d pm _ _ _ _ _ x); [apply pb_alter; [exact X|exact De|apply delim_heads; now apply Ky|exact L]|apply rd_ret].
  - intros pm k hs f cs l bs x D Fn M _ X Af. pose proof (function_head o hs f [] Fn) as H. rewrite app_nil_r in H.
    split; [apply heads_pre; eapply heads_sub; [exact H|intros y [<-|[]]; cbn; tauto]|]. split; [reflexivity|].
    pose proof (stmt_len _ _ _ _ _ X) as X0. destruct X as (X1 & X2 & X3).
    intros n d y rest De L F Ky. norm. repeat (rewrite ?app_length in L; cbn [length] in L). apply rd_create_stmt; [exact H|].
    apply (rd_function o d pm hs f [] cs l (bs ++ y :: rest) n (Some x)); [exact Fn|constructor|now right|exact M| | | |].
    + intros _. destruct (cs ++ bs) as [|z zs] eqn:Ez; [apply app_eq_nil in Ez as [_ ->]; cbn in X0; lia|]. rewrite app_assoc, Ez. exact Af.
    + apply heads_pre. eapply heads_sub; [exact X1|exact stmt_body].
    + cbn [app]. rewrite app_length. lia.
    + eapply rd_bind; [apply rd_parses, pa_dialect|]. rewrite D. cbn [is_maria]. destruct n as [|n]; [lia|]. rewrite r_stmt_knot.
      assert (0 < length hs) by (destruct hs; [now destruct H|cbn; lia]).
      eapply (rd_bind o d pm _ _ _ _ _ (Some x)); [apply X3; [exact De|lia|exact F|exact Ky]|apply rd_ret].
  - intros pm hs f ds cs l D Fn Ds Dl M Af. pose proof (function_head o hs f [] Fn) as H. rewrite app_nil_r in H.
    split; [apply heads_pre; eapply heads_sub; [exact H|intros y [<-|[]]; cbn; tauto]|]. split; [reflexivity|].
    intros n d y rest De L F Ky. norm. apply rd_create_stmt; [exact H|]. pose proof (heads_end y rest F) as He.
    apply (rd_function o d pm hs f ds cs l (y :: rest) n None); [exact Fn|exact Ds|exact Dl|exact M| | |exact L|].
    + intros E. specialize (Af E). destruct cs; [|exact Af]. cbn [app]. repeat split; try hd_tac He. intros Ep.
      assert (G : tok_eqb (hd_tok (y :: rest)) TLParen = false) by hd_tac He. rewrite Ep in G. discriminate.
    + eapply heads_sub; [exact He|exact ends_body].
    + eapply rd_bind; [apply rd_parses, pa_dialect|]. destruct (o_dialect o); [congruence|apply rd_ret..].
  - intros pm k hs f bs x T _ X. pose proof (trigger_head o hs f [] T) as H. rewrite app_nil_r in H.
    split; [apply heads_pre; eapply heads_sub; [exact H|intros y [<-|[]]; cbn; tauto]|]. split; [reflexivity|].
    pose proof (stmt_len _ _ _ _ _ X) as X0. destruct X as (X1 & X2 & X3).
    intros n d y rest De L F Ky. norm. rewrite app_length in L. apply rd_create_stmt; [exact H|].
    apply rd_trigger; [exact T|ne|lia|]. destruct n as [|n]; [lia|]. rewrite r_stmt_knot.
    assert (0 < length hs) by (destruct hs; [now destruct H|cbn; lia]). apply X3; [exact De|lia|exact F|exact Ky].
  - intros t s K. one_word K. eapply rd_bind; [apply rd_permit|]. cbn iota. eapply rd_bind; [apply rd_parses; now apply pa_consume_keyword|apply rd_ret].
  - intros t s K. one_word K. eapply rd_bind; [apply rd_permit|]. cbn iota. eapply rd_bind; [apply rd_parses; now apply pa_consume_keyword|apply rd_ret].
  - intros pm t s K. one_word K. eapply rd_bind; [apply rd_parses; now apply pa_consume_keyword|apply rd_ret].
  - intros pm t s t' s' K K'. one_word K. cbn iota. eapply rd_bind; [apply rd_parses; eapply pa_bind; [now apply pa_consume_keyword|]; eapply pa_bind; [now apply pa_consume_keyword|]; apply pa_ret|apply rd_ret].
  - intros pm t s bs l ts x D K _ (B0 & B) _ X Dx. pose proof (stmt_len _ _ _ _ _ X) as X0. destruct X as (X1 & X2 & X3). one_word K.
    rewrite <- app_assoc. cbn [length] in L. rewrite app_length in L. destruct n as [|n]; [lia|].
    eapply rd_bind; [|apply rd_ret]. eapply rd_bind; [apply rd_parses, pb_kw; [exact K|apply ne_app, ne_app; discriminate]|].
    eapply rd_bind; [apply (B n d _ _ []); [exact De|apply ne_app; discriminate| |lia|rewrite r_n_knot; lia]|].
    { apply (heads_pre _ _ (y :: rest)) in X1. hd_tac X1. }
    eapply (rd_bind o d pm _ _ _ _ _ (Some x)). { rewrite r_stmt_knot. apply X3; [exact De|lia|exact F|discriminate]. }
    cbn iota. eapply (rd_bind o d pm _ _ _ _ _ x). { rewrite (with_allowed_data x Dx). eapply rd_bind; apply rd_ret. }
    cbn zeta. eapply rd_bind; [apply rd_parses, pa_dialect|]. rewrite D. eapply rd_bind; apply rd_ret.
  - intros pm t s ts l e t1 s1 t2 s2 K _ (C0 & C) K1 K2. one_word K. norm. cbn [length] in L. rewrite app_length in L. cbn [length] in L.
    assert (H : heads [W "END"] ((t1, s1) :: (t2, s2) :: y :: rest)) by (eapply heads_kw; [exact K1|now left]).
    eapply rd_bind; [|apply rd_ret]. eapply rd_bind; [apply rd_parses, pb_kw; [exact K|ne]|].
    destruct (C n d _ n [] H ltac:(lia) ltac:(lia)) as (c & vs & R1 & R2). cbn [app] in R2.
    eapply (rd_bind o d pm _ _ _ _ _ (l, e) ((t1, s1) :: (t2, s2) :: y :: rest)); [|cbn iota; eapply rd_bind; [apply rd_parses, pb_kws2; [exact K1|exact K2|discriminate]|apply rd_ret]].
    apply rd_recovered_acc; [|discriminate|hd_tac H]. rewrite r_n_knot. apply (if_first o d pm n n [] c (ts ++ (t1, s1) :: (t2, s2) :: y :: rest) vs); assumption.
  - intros pm t s vs v ts l e t1 s1 K V _ (C0 & C) K1. one_word K. norm. cbn [length] in L. rewrite !app_length in L. cbn [length] in L.
    assert (H : heads [W "END"] ((t1, s1) :: y :: rest)) by (eapply heads_kw; [exact K1|now left]).
    eapply rd_bind; [|apply rd_ret]. eapply rd_bind; [apply rd_parses, pb_kw; [exact K|ne]|].
    apply rd_assoc. eapply rd_bind; [apply rd_parses, pb_case_value; [exact V|now apply heads_pre|lia]|].
    eapply (rd_bind o d pm _ _ _ _ _ (l, e) ((t1, s1) :: y :: rest)); [|cbn iota; eapply rd_bind; [apply rd_parses, pb_kw; [exact K1|discriminate]|apply rd_ret]].
    apply rd_recovered_acc; [|discriminate|hd_tac H]. rewrite r_n_knot. apply (C n d _ (S n) []); [exact H|lia|lia].
  - intros ts l _ (H & B). split; [eapply heads_sub; [exact H|intros y [<-|[]]; cbn; tauto]|]. split; [reflexivity|].
    intros n d y rest De L F _. apply (heads_pre _ _ (y :: rest)) in H. eapply rd_bind; [apply rb_token; ne|].
    assert (E : forall k, existsb (String.eqb k) ["CREATE"; "DROP"; "SELECT"; "DELETE"; "INSERT"; "REPLACE"; "UPDATE"; "SET"; "SIGNAL"] = true -> is_kw (hd_tok (ts ++ y :: rest)) k = false).
    { intros k I. apply existsb_exists in I as (kx & I & Ex). apply String.eqb_eq in Ex as <-. cbn [In] in I. repeat (destruct I as [<-|I]; [hd_tac H|]). destruct I. }
    not_words E (ts ++ y :: rest). replace (tok_eqb (hd_tok (ts ++ y :: rest)) TLParen) with false by (symmetry; hd_tac H). cbn [orb].
    replace (is_kw (hd_tok (ts ++ y :: rest)) "BEGIN") with true by (symmetry; hd_tac H).
    eapply rd_bind; [apply rd_permit|]. cbn iota. eapply rd_bind; [apply B; [discriminate|exact L]|apply rd_ret].
  - intros pm t s s1 ts l s2 K _ (H & B). one_word K. norm. cbn [length] in L. rewrite app_length in L. cbn [length] in L.
    eapply rd_bind; [|apply rd_ret]. eapply rd_bind; [apply rd_parses, pb_kw; [exact K|discriminate]|].
    eapply rd_bind; [apply rd_parses, pb_tok; [ne|reflexivity]|]. eapply rd_bind; [apply B; [discriminate|lia]|].
    eapply rd_bind; [apply rd_parses, pb_tok; [discriminate|reflexivity]|apply rd_ret].
  - intros pm ts b _ (B0 & B). split; [exact B0|]. intros n d us m acc De N C L Lm. destruct m as [|m]; [lia|]. cbn [loop].
    eapply (rd_bind o d pm _ _ _ _ _ (inr (acc ++ [b]))); [|apply rd_ret]. eapply rd_bind; [now apply B|]. eapply rd_bind; [apply rd_parses; now apply pb_skip_tok_no|]. apply rd_ret.
  - intros pm ts b s ts' l _ (B0 & B) _ (I0 & IH). split; [rewrite app_length; lia|]. intros n d us m acc De N C L Lm. rewrite <- app_assoc. cbn [app]. rewrite app_length in L, Lm. cbn [length] in L, Lm.
    destruct m as [|m]; [lia|]. cbn [loop]. eapply (rd_bind o d pm _ _ _ _ _ (inl (acc ++ [b])) (ts' ++ us)).
    + eapply rd_bind; [apply B; [exact De|discriminate|lia]|]. eapply rd_bind; [apply rd_parses; apply pb_skip_tok; [now apply ne_app|reflexivity]|]. apply rd_ret.
    + cbn iota. replace (acc ++ b :: l) with ((acc ++ [b]) ++ l) by now rewrite <- app_assoc. apply IH; auto; lia.
  - intros pm t v s t1 s1 s2 ts x s3 N K _ X Dx. pose proof (stmt_len _ _ _ _ _ X) as X0. destruct X as (X1 & X2 & X3). split; [cbn; lia|].
    intros n d us De U L. cbn [app length] in *. rewrite <- app_assoc. rewrite app_length in L. cbn [app length] in *.
    eapply rd_bind; [apply rd_parses, pb_name; [exact N|discriminate]|]. eapply rd_bind; [apply rd_parses, pb_kw; [exact K|discriminate]|].
    eapply rd_bind; [apply rd_parses, pb_tok; [apply ne_app; discriminate|reflexivity]|].
    eapply (rd_bind o d pm _ _ _ _ _ (Some x) ((TRParen, s3) :: us)).
    { eapply rd_bind; [eapply (rd_try o d pm _ _ _ _ _ (Some x)); [|apply rd_ret]|].
      - eapply (rd_bind o d pm _ _ _ _ _ (Some x)); [|apply rd_ret]. rewrite r_stmt_knot. apply X3; [exact De|lia|reflexivity|discriminate].
      - eapply rd_bind; [|apply rd_ret]. eapply rd_bind; [apply rd_token|]. apply rd_ret. }
    eapply rd_bind; [apply rd_parses, pb_tok; [exact U|reflexivity]|]. cbn iota. eapply (rd_bind o d pm _ _ _ _ _ x); [|apply rd_ret].
    rewrite (with_allowed_data x Dx). eapply rd_bind; apply rd_ret.
  - intros pm s0 es e t s c ts l E K _ P C. split; [destruct es; discriminate|]. intros n d us m acc H L Lm. rewrite app_length in L, Lm. cbn [length] in L, Lm. norm. destruct m as [|m]; [lia|].
    exists (mkIfCondition s0 e s l), us. split; [apply (rd_condition o d pm s0 es e t s c); [exact E|exact K|exact P|now apply follow_end|lia]|].
    apply if_done; [ne|hd_tac H|]. apply rd_else_none; [ne|hd_tac H].
  - intros pm s0 es e t s c ts l t' s' c' ts' l' E K _ P K' _ P' C. split; [destruct es; discriminate|]. intros n d us m acc H L Lm. repeat (rewrite ?app_length in L, Lm; cbn [length] in L, Lm). norm. destruct m as [|m]; [lia|].
    exists (mkIfCondition s0 e s l), ((t', s') :: ts' ++ us). split; [apply (rd_condition o d pm s0 es e t s c); [exact E|exact K|exact P|apply (follow_word o _ _ "ELSE"); [exact K'|cbn; tauto]|lia]|].
    apply if_done; [discriminate|cbn [hd_tok fst]; now kwt K'|]. apply (rd_else_some o d pm c'); [exact K'|exact P'|now apply follow_end|lia].
  - intros pm s0 es e t s c ts l t' s' ts' l' el E K _ P K' _ (C0 & C). split; [destruct es; discriminate|]. intros n d us m acc H L Lm. repeat (rewrite ?app_length in L, Lm; cbn [length] in L, Lm). norm. destruct m as [|m]; [lia|].
    exists (mkIfCondition s0 e s l), ((t', s') :: ts' ++ us). split; [apply (rd_condition o d pm s0 es e t s c); [exact E|exact K|exact P|apply (follow_word o _ _ "ELSEIF"); [exact K'|cbn; tauto]|lia]|].
    destruct (C n d us m (acc ++ [mkIfCondition s0 e s l]) H ltac:(lia) ltac:(lia)) as (c1 & vs & R1 & R2). rewrite <- !app_assoc in R2. cbn [app] in R2.
    apply (if_next o d pm n m _ c1 t' s' (ts' ++ us) vs); [exact K'|destruct ts'; [congruence|discriminate]|exact R1|]. rewrite <- app_assoc. exact R2.
  - intros pm t0 s0 es e t s c ts l K0 E K _ P C. split; [eapply heads_kw; [exact K0|now left]|]. intros n d us m acc H L Lm. cbn [length] in L, Lm. rewrite app_length in L, Lm. cbn [length] in L, Lm. norm. destruct m as [|m]; [lia|].
    eapply (case_done o d pm n m acc _ _ us); [apply (rd_when o d pm t0 s0 es e t s c); [exact K0|exact E|exact K|exact P|now apply follow_end|lia]|ne|hd_tac H|].
    apply rd_else_none; [ne|hd_tac H].
  - intros pm t0 s0 es e t s c ts l t' s' c' ts' l' K0 E K _ P K' _ P' C. split; [eapply heads_kw; [exact K0|now left]|]. intros n d us m acc H L Lm. repeat (rewrite ?app_length in L, Lm; cbn [length] in L, Lm). norm. destruct m as [|m]; [lia|].
    eapply (case_done o d pm n m acc _ _ ((t', s') :: ts' ++ us)); [apply (rd_when o d pm t0 s0 es e t s c); [exact K0|exact E|exact K|exact P|apply (follow_word o _ _ "ELSE"); [exact K'|cbn; tauto]|lia]|discriminate|cbn [hd_tok fst]; now kwt K'|].
    apply (rd_else_some o d pm c'); [exact K'|exact P'|now apply follow_end|lia].
  - intros pm t0 s0 es e t s c ts l ts' l' el K0 E K _ P _ (C0 & C). split; [eapply heads_kw; [exact K0|now left]|]. intros n d us m acc H L Lm. repeat (rewrite ?app_length in L, Lm; cbn [length] in L, Lm). norm. destruct m as [|m]; [lia|].
    pose proof C0 as C1. apply (heads_pre _ _ us) in C1.
    assert (Fo : list_follow pm c (ts' ++ us)). { split; [eapply heads_sub; [exact C1|intros y [<-|[]]; cbn; tauto]|]. split; intros; hd_tac C1. }
    eapply (case_next o d pm n m acc _ _ (ts' ++ us)); [apply (rd_when o d pm t0 s0 es e t s c); [exact K0|exact E|exact K|exact P|exact Fo|lia]|ne|hd_tac C1|].
    replace (acc ++ mkWhenStatement s0 e s l :: l') with ((acc ++ [mkWhenStatement s0 e s l]) ++ l') by now rewrite <- app_assoc. apply C; [exact H|lia|lia].
  - intros pm t s c ts l t1 s1 K _ P C K1. now apply (body_plain o pm t s c).
  - intros pm t s ts l t1 s1 hs us t2 s2 K _ P K1 M K2. now apply (body_exception o pm t s ts l t1 s1 hs us).
  - intros pm ds S. now apply list_end.
  - intros pm c k ds ts x s us l S _ X _ P. now apply (list_stmt o pm c k).
  - intros pm ds ts x S _ X. now apply list_last.
Qed.
Lemma stmt_reads o pm k ts x : stmt_is o pm k ts x -> P_stmt o pm k ts x.
Proof. apply stmts_read. Qed.

(** ** Scripts *)
Lemma begins_facts us : heads stmt_words us -> tok_eqb (hd_tok us) TEof = false /\ tok_eqb (hd_tok us) TSemiColon = false /\ tok_eqb (hd_tok us) TDoubleDollar = false /\ is_kw (hd_tok us) "DELIMITER" = false.
Proof. intros H. repeat split; hd_tac H. Qed.
Lemma delim_refl d : delim_tok d -> tok_eqb d d = true.
Proof. now intros [-> | ->]. Qed.
Lemma delim_from d s : delim_tok d -> from 11 (d, s) = true.
Proof. now intros [-> | ->]. Qed.
Lemma begins_delim us d : heads stmt_words us -> delim_tok d -> tok_eqb (hd_tok us) d = false.
Proof. intros B D. apply begins_facts in B as (_ & B1 & B2 & _). now destruct D as [-> | ->]. Qed.

(** The delimiters at the beginning, and what follows: the end; a statement followed by [y],
    tokens [js] that are passed over and the rest; a DELIMITER command. *)
Definition after_stmt (o : reading) (e : span) (d : tok) (y : tok * span) (js vs : tks) (l : list stmt) (errs : list (tok * span)) : Prop :=
  (fst y = d /\ js = [] /\ script_is o e d vs l errs) \/
  (delim_tok (fst y) /\ fst y <> d /\ Forall (fun j => fst j <> d /\ fst j <> TEof /\ placeholder o (fst j) = false) js /\
   ((exists s us errs', vs = (d, s) :: us /\ errs = (d, snd y) :: errs' /\ script_is o e d us l errs') \/
    (vs = [] /\ l = [] /\ errs = [(d, snd y)]))).
Lemma script_inv o e d ts l errs : script_is o e d ts l errs -> exists ds ts',
  ts = ds ++ ts' /\ Forall (fun x => fst x = d) ds /\
  ((ts' = [] /\ l = [] /\ errs = []) \/
   (exists us x k y js vs l', ts' = us ++ y :: js ++ vs /\ l = x :: l' /\ stmt_is o false k us x /\ (k = true -> fst y = d) /\ after_stmt o e d y js vs l' errs) \/
   (exists x k, l = [x] /\ stmt_is o false k ts' x /\ errs = [(d, e)]) \/
   (exists t s d' s' vs, ts' = (t, s) :: (d', s') :: vs /\ kw_tok o "DELIMITER" t /\ delim_tok d' /\ script_is o e d' vs l errs)).
Proof.
  induction 1 as [d|d s ts l errs H IH|d s k ts x us l errs X H IH|d t s d' s' ts l errs K D H IH|d ts x y s js s' us l errs X Y Z F H IH|d ts x y s js X Y Z F|d k ts x X].
  - exists [], []. split; [reflexivity|]. split; [constructor|]. left. auto.
  - destruct IH as (ds & ts' & -> & F & C). exists ((d, s) :: ds), ts'. split; [reflexivity|]. split; [now constructor|exact C].
  - exists [], (ts ++ (d, s) :: us). split; [reflexivity|]. split; [constructor|]. right. left. exists ts, x, k, (d, s), [], us, l.
    split; [reflexivity|]. split; [reflexivity|]. split; [exact X|]. split; [reflexivity|]. left. auto.
  - exists [], ((t, s) :: (d', s') :: ts). split; [reflexivity|]. split; [constructor|]. right. right. right. exists t, s, d', s', ts. auto.
  - exists [], (ts ++ (y, s) :: js ++ (d, s') :: us). split; [reflexivity|]. split; [constructor|]. right. left. exists ts, x, false, (y, s), js, ((d, s') :: us), l.
    split; [reflexivity|]. split; [reflexivity|]. split; [exact X|]. split; [discriminate|]. right. split; [exact Y|]. split; [exact Z|]. split; [exact F|]. left. exists s', us, errs. auto.
  - exists [], (ts ++ (y, s) :: js). split; [reflexivity|]. split; [constructor|]. right. left. exists ts, x, false, (y, s), js, [], [].
    split; [now rewrite app_nil_r|]. split; [reflexivity|]. split; [exact X|]. split; [discriminate|]. right. split; [exact Y|]. split; [exact Z|]. split; [exact F|]. right. auto.
  - exists [], ts. split; [reflexivity|]. split; [constructor|]. right. right. left. eauto.
Qed.
Lemma delim_np (o : reading) d : delim_tok d -> placeholder o d = false.
Proof. now intros [-> | ->]. Qed.
Lemma delim_punct (o : reading) d : delim_tok d -> punct o d = true.
Proof. now intros [-> | ->]. Qed.
Lemma skip_delims (o : reading) d : delim_tok d -> forall ds n x rest, Forall (fun x => fst x = d) ds -> tok_eqb (fst x) d = false -> length ds < n ->
  reads o d false (skip_delimiters n) (ds ++ x :: rest) (tok_eqb (fst x) TEof) (x :: rest).
Proof.
  intros D. induction ds as [|y ds IH]; intros n x rest F X L; (destruct n as [|n]; [cbn in L; lia|]); unfold skip_delimiters; cbn [loop app].
  - eapply (rd_bind o d false _ _ _ _ _ (inr (tok_eqb (fst x) TEof))); [|apply rd_ret]. eapply rd_bind; [apply rd_token|]. eapply rd_bind; [apply rd_delim|]. rewrite X.
    destruct (tok_eqb (fst x) TEof); apply rd_ret.
  - inversion F as [|? ? Y F']; subst. destruct (ds ++ x :: rest) as [|z zs] eqn:E; [now destruct ds|].
    eapply (rd_bind o _ false _ _ _ _ _ (inl tt)).
    + eapply rd_bind; [apply rd_token|]. eapply rd_bind; [apply rd_delim|]. rewrite delim_refl by exact D.
      eapply rd_bind; [apply rd_parses, pa_consume; now apply delim_np|apply rd_ret].
    + rewrite <- E. apply IH; auto. cbn in L. lia.
Qed.
Lemma delim_eqb t d : delim_tok d -> t <> d -> tok_eqb t d = false.
Proof. intros [-> | ->] H; destruct t; try reflexivity; now destruct H. Qed.
Lemma eof_eqb t : t <> TEof -> tok_eqb t TEof = false.
Proof. destruct t; try reflexivity. intros H. now destruct H. Qed.
Lemma recover_reads (o : reading) d : delim_tok d -> forall js n y z rest, Forall (fun j => fst j <> d /\ fst j <> TEof /\ placeholder o (fst j) = false) js -> fst z = d \/ fst z = TEof -> placeholder o (fst y) = false -> length js < n ->
  reads o d false (recover_statement n) (y :: js ++ z :: rest) (negb (tok_eqb (fst z) d)) (z :: rest).
Proof.
  intros D. induction js as [|j js IH]; intros n y z rest F Z Py L; (destruct n as [|n]; [cbn in L; lia|]); unfold recover_statement; cbn [loop app].
  - eapply (rd_bind o d false _ _ _ _ _ (inr (negb (tok_eqb (fst z) d)))); [|apply rd_ret]. eapply rd_bind; [apply rd_parses, pa_next; exact Py|]. eapply rd_bind; [apply rd_token|]. eapply rd_bind; [apply rd_delim|].
    destruct (tok_eqb (fst z) d) eqn:E; [apply rd_ret|]. destruct Z as [Z|Z]; [rewrite Z, delim_refl in E by exact D; discriminate|]. rewrite Z. cbn [tok_eqb tok_tag Nat.eqb]. apply rd_ret.
  - inversion F as [|? ? (Y1 & Y2 & Y3) F']; subst.
    eapply (rd_bind o _ false _ _ _ _ _ (inl tt)).
    + eapply rd_bind; [apply rd_parses, pa_next; exact Py|]. eapply rd_bind; [apply rd_token|]. eapply rd_bind; [apply rd_delim|].
      rewrite (delim_eqb _ _ D Y1), (eof_eqb _ Y2). apply rd_ret.
    + apply IH; auto. cbn in L. lia.
Qed.
(** An Error is reported at a token whose range is one of the source. *)
Lemma expected_seen (o : reading) name st x ts : before o st (x :: ts) -> (exists w, slice (s_isrc st) (fst (snd x)) (snd (snd x)) = Some w) ->
  exists i st', run (expected_error name) st = ROk tt st' /\ before o st' (x :: ts) /\ s_issues st' = s_issues st ++ [i] /\
    seen i = (Error, txt "Expected '" ++ txt name ++ txt "' here", snd x) /\
    s_isrc st' = s_isrc st /\ s_opts st' = s_opts st /\ s_delim st' = s_delim st /\ s_permit st' = s_permit st.
Proof.
  intros [[A1 A2] Nu] [w Sl]. unfold expected_error, err_frags. rewrite run_bind, run_span, run_perf. cbn [exec]. unfold p_issue.
  subst x. cbn [snd] in *. rewrite Sl. cbn [build_frags].
  eexists _, _. split; [reflexivity|]. split; [split; [split; [reflexivity|exact A2]|exact Nu]|]. split; [reflexivity|]. split; [reflexivity|]. cbn. auto.
Qed.
Definition sliced (src : text) (ts : tks) : Prop := Forall (fun x : tok * span => exists w, slice src (fst (snd x)) (snd (snd x)) = Some w) ts.
(** A run of the loop from a state before the tokens [ts] of a script and the end of the input. *)
Lemma script_runs (o : reading) : forall k d ts l errs e, length ts < k -> script_is o (snd e) d ts l errs -> delim_tok d ->
  forall n acc st, fst e = TEof -> S (length ts) < n -> sliced (s_isrc st) (ts ++ [e]) ->
    before o st (ts ++ [e; e]) -> s_opts st = o -> s_delim st = d -> s_permit st = false ->
    exists st' out, run (loop k (parse_statements_step (knot n)) acc) st = ROk (acc ++ l) st' /\ s_issues st' = s_issues st ++ out /\ map seen out = map missing errs.
Proof.
  induction k as [|k IH]; intros d ts l errs e Lk H D n acc st E Ln Sc Ah O De P; [lia|]. cbn [loop]. rewrite run_bind.
  destruct (script_inv _ _ _ _ _ _ H) as (ds & ts' & -> & F & C). rewrite app_length in Lk, Ln.
  assert (R : r_n (knot n) = S n) by apply r_n_knot. rewrite <- app_assoc in Ah, Sc. apply Forall_app in Sc as [_ Sc].
  (* a statement in front of [y] *)
  assert (Front : forall us x q y rest, stmt_is o false q us x -> from 11 y = true -> (q = true -> fst y = d \/ fst y = TEof) -> S (length (ds ++ us)) < n -> before o st (ds ++ us ++ y :: rest) ->
    exists st1, run (parse_statements_step (knot n) acc) st =
     run (t <- token ;; d <- perf ODelim ;;
           eof <- (if negb (tok_eqb t d) then expected_error (tok_name d) ;;; recover_statement (S n) else Ret false) ;;
           if eof : bool then Ret (inr (acc ++ [x]))
           else d <- perf ODelim ;; Try (consume_token d) (fun z => match z with Some _ => Ret (inl (acc ++ [x])) | None => Panic PDelimiter end)) st1 /\
     before o st1 (y :: rest) /\ same st st1).
  { intros us x q y rest X Fy Ky Lu Ax. unfold parse_statements_step. rewrite R. rewrite app_length in Lu. pose proof (stmt_len _ _ _ _ _ (stmt_reads _ _ _ _ _ X)) as X1. destruct (stmt_reads _ _ _ _ _ X) as (X2 & X3 & X4).
    destruct (cons_len us X1) as (z & zs & Ez & Hz). subst us. cbn [app length] in *.
    destruct (skip_delims o d D ds (S n) z (zs ++ y :: rest) F) with (st := st) as (st1 & R1 & A1 & S1); auto; [exact (begins_delim _ d X2 D)|lia|].
    rewrite run_bind, R1. destruct (begins_facts _ X2) as (B0 & _ & _ & B1). cbn [hd_tok] in B0, B1. rewrite B0. cbn iota.
    destruct (pa_skip_keyword_no o "DELIMITER" z (zs ++ y :: rest) B1 st1 A1) as (st2 & R2 & A2 & S2); [now rewrite (sm_opts _ _ S1)|].
    rewrite run_bind, R2. cbn iota.
    assert (Rs : reads o d false (Try (s <- r_stmt (knot n) ;; match s with Some v => Ret v | None => expected_failure "Statement" end) Ret) (z :: zs ++ y :: rest) (Some x) (y :: rest)).
    { eapply (rd_try o d false _ _ _ _ _ x); [|apply rd_ret]. eapply (rd_bind o d false _ _ _ _ _ (Some x)); [|apply rd_ret].
      destruct n as [|n]; [lia|]. change (r_stmt (knot (S n))) with (parse_statement (knot n)).
      apply (X4 n d y rest); [exact D|lia|exact Fy|exact Ky]. }
    pose proof (same_trans _ _ _ S1 S2) as S3. destruct (Rs st2 A2) as (st3 & R3 & A3 & S4); [now rewrite (sm_opts _ _ S3)|now rewrite (sm_delim _ _ S3)|now rewrite (sm_permit _ _ S3)|].
    rewrite run_bind, R3. cbn [is_some negb]. rewrite X3. cbn zeta iota. exists st3. split; [reflexivity|]. split; [exact A3|eapply same_trans; eauto]. }
  destruct C as [(-> & -> & ->)|[(us & x & q & y & js & vs & l' & -> & -> & X & Kq & Y)|[(x & q & -> & X & ->)|(t & s & d' & s' & vs & -> & K & D' & H')]]].
  - unfold parse_statements_step at 1. rewrite R. cbn [app] in Ah. destruct (skip_delims o d D ds (S n) e [e] F) with (st := st) as (st1 & R1 & A1 & S1); auto; [rewrite E; now destruct D as [-> | ->]|lia|].
    rewrite run_bind, R1, E. cbn. exists st1, []. rewrite app_nil_r. split; [reflexivity|]. split; [rewrite app_nil_r; apply S1|reflexivity].
  - rewrite app_length in Lk, Ln. cbn [length] in Lk, Ln. rewrite app_length in Lk, Ln. rewrite <- app_assoc in Ah, Sc. cbn [app] in Ah, Sc. rewrite <- app_assoc in Ah, Sc.
    assert (Fy : from 11 y = true). { destruct y as [t s]. destruct Y as [(Y & _)|(Y & _)]; cbn [fst] in Y; [subst t|]; now apply delim_from. }
    destruct (Front us x q y (js ++ vs ++ [e; e]) X Fy) as (st1 & R1 & A1 & S1); [intros Eq; left; now apply Kq|rewrite app_length; lia|exact Ah|].
    rewrite R1. clear R1 Front Ah. rewrite run_bind, run_token, run_bind, run_perf. cbn [exec]. rewrite (sm_delim _ _ S1), De.
    assert (Ey : s_tok st1 = fst y) by (destruct A1 as [[-> _] _]; reflexivity). rewrite Ey.
    apply Forall_app in Sc as [_ Sc]. inversion Sc as [|? ? Sy Sc1]; subst x0 l. apply Forall_app in Sc1 as [_ Sc1].
    destruct Y as [(Yd & -> & H')|(Yd & Yn & Fj & Z)].
    + rewrite Yd, (delim_refl _ D). cbn [negb]. rewrite run_bind. cbn [run]. rewrite run_bind, run_perf. cbn [exec]. rewrite (sm_delim _ _ S1), De.
      cbn [app] in A1. destruct (vs ++ [e; e]) as [|w ws] eqn:Ew; [now destruct vs|]. destruct y as [yt ys]. cbn [fst] in Yd. subst yt.
      destruct (pa_consume_token o d ys w ws (delim_punct _ _ D) st1 A1) as (st2 & R2 & A2 & S2); [now rewrite (sm_opts _ _ S1)|].
      rewrite run_try, R2. cbn [run]. rewrite <- Ew in A2. cbn [app length] in *. pose proof (same_trans _ _ _ S1 S2) as S3.
      destruct (IH d vs l' errs e ltac:(lia) H' D n (acc ++ [x]) st2) as (st4 & out & R4 & S4 & S5); auto;
        [lia|rewrite (sm_isrc _ _ S3); exact Sc1|now rewrite (sm_opts _ _ S3)|now rewrite (sm_delim _ _ S3)|now rewrite (sm_permit _ _ S3)|].
      exists st4, out. rewrite R4, <- app_assoc. split; [reflexivity|]. split; [|exact S5]. now rewrite S4, (sm_issues _ _ S3).
    + rewrite (delim_eqb _ _ D Yn). cbn [negb]. rewrite run_bind, run_bind.
      destruct (expected_seen o (tok_name d) st1 _ _ A1) as (i & st2 & R2 & A2 & I2 & Se & Q1 & Q2 & Q3 & Q4); [rewrite (sm_isrc _ _ S1); exact Sy|]. rewrite R2.
      destruct Z as [(s & us' & errs' & -> & -> & H')|(-> & -> & ->)].
      * cbn [app length] in *. destruct (recover_reads o d D js (S n) y (d, s) (us' ++ [e; e]) Fj) with (st := st2) as (st3 & R3 & A3 & S3);
          [now left|now apply delim_np|lia|exact A2|now rewrite Q2, (sm_opts _ _ S1)|now rewrite Q3, (sm_delim _ _ S1)|now rewrite Q4, (sm_permit _ _ S1)|].
        rewrite R3. cbn [fst]. rewrite (delim_refl _ D). cbn [negb]. rewrite run_bind, run_perf. cbn [exec]. rewrite (sm_delim _ _ S3), Q3, (sm_delim _ _ S1), De.
        destruct (us' ++ [e; e]) as [|w ws] eqn:Ew; [now destruct us'|].
        destruct (pa_consume_token o d s w ws (delim_punct _ _ D) st3 A3) as (st4 & R4 & A4 & S4); [now rewrite (sm_opts _ _ S3), Q2, (sm_opts _ _ S1)|].
        rewrite run_try, R4. cbn [run]. rewrite <- Ew in A4.
        destruct (IH d us' l' errs' e ltac:(lia) H' D n (acc ++ [x]) st4) as (st5 & out & R5 & S5 & S6); auto;
          [lia|rewrite (sm_isrc _ _ S4), (sm_isrc _ _ S3), Q1, (sm_isrc _ _ S1); now inversion Sc1
          |now rewrite (sm_opts _ _ S4), (sm_opts _ _ S3), Q2, (sm_opts _ _ S1)|now rewrite (sm_delim _ _ S4), (sm_delim _ _ S3), Q3, (sm_delim _ _ S1)
          |now rewrite (sm_permit _ _ S4), (sm_permit _ _ S3), Q4, (sm_permit _ _ S1)|].
        exists st5, (i :: out). rewrite R5, <- app_assoc. split; [reflexivity|]. split.
        { rewrite S5, (sm_issues _ _ S4), (sm_issues _ _ S3), I2, (sm_issues _ _ S1), <- app_assoc. reflexivity. }
        cbn [map]. now rewrite Se, S6.
      * cbn [app length] in *. destruct (recover_reads o d D js (S n) y e [e] Fj) with (st := st2) as (st3 & R3 & A3 & S3);
          [now right|now apply delim_np|lia|exact A2|now rewrite Q2, (sm_opts _ _ S1)|now rewrite Q3, (sm_delim _ _ S1)|now rewrite Q4, (sm_permit _ _ S1)|].
        rewrite R3, E. replace (tok_eqb TEof d) with false by now destruct D as [-> | ->]. cbn [negb run].
        exists st3, [i]. split; [reflexivity|]. split; [now rewrite (sm_issues _ _ S3), I2, (sm_issues _ _ S1)|]. cbn [map]. now rewrite Se.
  - destruct (Front ts' x q e [e] X) as (st1 & R1 & A1 & S1); [unfold from; rewrite E; reflexivity|intros _; now right|rewrite app_length; lia|exact Ah|].
    rewrite R1. clear R1 Front Ah. rewrite run_bind, run_token, run_bind, run_perf. cbn [exec]. rewrite (sm_delim _ _ S1), De.
    assert (Ey : s_tok st1 = fst e) by (destruct A1 as [[-> _] _]; reflexivity). rewrite Ey, E. replace (tok_eqb TEof d) with false by now destruct D as [-> | ->]. cbn [negb].
    apply Forall_app in Sc as [_ Sc]. inversion Sc as [|? ? Sy Sc1]; subst x0 l. rewrite run_bind, run_bind.
    destruct (expected_seen o (tok_name d) st1 _ _ A1) as (i & st2 & R2 & A2 & I2 & Se & Q1 & Q2 & Q3 & Q4); [rewrite (sm_isrc _ _ S1); exact Sy|]. rewrite R2.
    destruct (recover_reads o d D [] (S n) e e [] ltac:(constructor)) with (st := st2) as (st3 & R3 & A3 & S3);
          [now right|now rewrite E|cbn; lia|exact A2|now rewrite Q2, (sm_opts _ _ S1)|now rewrite Q3, (sm_delim _ _ S1)|now rewrite Q4, (sm_permit _ _ S1)|].
    rewrite R3, E. replace (tok_eqb TEof d) with false by now destruct D as [-> | ->]. cbn [negb run].
    exists st3, [i]. split; [reflexivity|]. split; [now rewrite (sm_issues _ _ S3), I2, (sm_issues _ _ S1)|]. cbn [map]. now rewrite Se.
  - unfold parse_statements_step at 1. rewrite R. cbn [length] in Lk, Ln. cbn [app] in Ah. rewrite run_bind.
    destruct (skip_delims o d D ds (S n) (t, s) ((d', s') :: vs ++ [e; e]) F) with (st := st) as (st1 & R1 & A1 & S1); auto.
    { pose proof K as (v & -> & _). now destruct D as [-> | ->]. } { lia. }
    rewrite R1. pose proof K as (v & Et & _). replace (tok_eqb (fst (t, s)) TEof) with false by now rewrite Et. cbn iota. rewrite run_bind.
    destruct (pa_skip_keyword o _ t s (d', s') (vs ++ [e; e]) K st1 A1) as (st2 & R2 & A2 & S2); [now rewrite (sm_opts _ _ S1)|]. rewrite R2. cbn iota.
    rewrite run_bind, run_token. destruct A2 as [[A2 A2'] N2]. injection A2 as -> ->.
    assert (KD : known_delimiter (s_tok st2) = true) by now destruct D' as [-> | ->]. rewrite KD. cbn [negb]. rewrite !run_bind. cbn [run].
    rewrite run_bind, run_perf. cbn [exec]. rewrite run_bind.
    destruct (vs ++ [e; e]) as [|w ws] eqn:Ew; [now destruct vs|].
    match goal with |- context[run next ?x] => assert (A3 : before o x ((s_tok st2, s_span st2) :: w :: ws)) by (split; [split; [reflexivity|exact A2']|exact N2]);
      destruct (pa_next o (s_tok st2, s_span st2) w ws (delim_np o _ D') x A3) as (st3 & R3 & A4 & S3); [cbn; now rewrite (sm_opts _ _ S2), (sm_opts _ _ S1)|] end.
    rewrite R3. cbn [run]. rewrite <- Ew in A4.
    destruct (IH (s_tok st2) vs l errs e ltac:(lia) H' D' n acc st3) as (st4 & out & R4 & S4 & S5); auto;
      [lia|rewrite (sm_isrc _ _ S3); cbn; rewrite (sm_isrc _ _ S2), (sm_isrc _ _ S1); inversion Sc as [|? ? _ Sc1]; now inversion Sc1|rewrite (sm_opts _ _ S3); cbn; now rewrite (sm_opts _ _ S2), (sm_opts _ _ S1)|now rewrite (sm_delim _ _ S3)
      |rewrite (sm_permit _ _ S3); cbn; now rewrite (sm_permit _ _ S2), (sm_permit _ _ S1)|].
    exists st4, out. split; [exact R4|]. split; [|exact S5]. rewrite S4, (sm_issues _ _ S3). cbn. now rewrite (sm_issues _ _ S2), (sm_issues _ _ S1).
Qed.
Lemma layout_sliced src p r ts : layout p r ts -> forall pre, src = pre ++ r -> p = blen pre -> sliced src ts.
Proof.
  induction 1 as [p g|p g w r t ts Tg Wn Tt Te En L IH]; intros pre Es Ep.
  - constructor; [|constructor]. exists []. apply slice_iff_at. exists src, []. cbn [fst snd]. rewrite Es, !app_nil_r, blen_app. repeat split; cbn; lia.
  - constructor.
    + exists w. apply slice_iff_at. exists (pre ++ g), r. cbn [fst snd]. rewrite Es, blen_app, <- !app_assoc. repeat split; lia.
    + eapply (IH (pre ++ g ++ w)); [rewrite Es, <- !app_assoc; reflexivity|]. rewrite !blen_app. lia.
Qed.
Lemma tokens_sliced src ts : tokens src = Some (inl ts) -> sliced src ts.
Proof. intros T. destruct (tokens_layout src) as (o' & E' & L). rewrite T in E'. injection E' as <-. eapply layout_sliced; [exact L|now instantiate (1 := [])|reflexivity]. Qed.
Theorem script_source (o : reading) src issues ts l errs : written o src ts -> script_is o (blen src, blen src) TSemiColon ts l errs ->
  exists out, parse_statements src issues o = Returns l (issues ++ out) /\ map seen out = map missing errs.
Proof.
  intros T H. destruct (before_tokens o src issues ts 1 T) as (st & E & A & O & I & D & P & Is). cbn [repeat] in A. destruct T as [T _].
  pose proof (tokens_sliced _ _ T) as Sc.
  apply tokens_length in T. rewrite app_length in T. cbn in T. unfold parse_statements, parse_statements_n. rewrite E.
  destruct (script_runs o (r_n (knot (budget src))) TSemiColon ts l errs (eof_of src)) with (n := budget src) (acc := @nil stmt) (st := st) as (st' & out & R & S' & S2); auto.
  - rewrite r_n_knot. unfold budget. lia.
  - now left.
  - unfold budget. lia.
  - now rewrite Is.
  - unfold parse_statements_loop. rewrite R. cbn [outcome_of app]. rewrite S', I. eauto.
Qed.
Theorem statement_source (o : reading) src issues ts k x : written o src ts -> stmt_is o false k ts x ->
  parse_statement_api src issues o = Returns (Some x) issues.
Proof.
  intros T H. destruct (before_tokens o src issues ts 0 T) as (st & E & A & O & I & D & P & Is). cbn [repeat] in A. destruct T as [T _].
  apply tokens_length in T. rewrite app_length in T. cbn in T. unfold parse_statement_api, parse_statement_n. rewrite E.
  assert (X : reads o TSemiColon false (parse_statement_body (knot (budget src))) (ts ++ [eof_of src]) (Some x) [eof_of src]).
  { eapply rd_try; [apply (stmt_reads o false k); [exact H|now left|unfold budget; lia|reflexivity|intros _; now right]|]. cbn iota. eapply rd_bind; [apply rd_token|].
    cbn [fst eof_of tok_eqb tok_tag Nat.eqb negb]. eapply rd_bind; apply rd_ret. }
  destruct (X st A O D P) as (st' & R & _ & S). rewrite R. cbn [outcome_of]. now rewrite (sm_issues _ _ S), I.
Qed.
