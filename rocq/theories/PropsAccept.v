(** C51: what is accepted without an Error is well formed.

    The grammar is [rule] of Ebnf.v, an EBNF over tokens; [derives o a ts]: the right-hand side [a] derives the tokens [ts];
    [script o d ts n]: [ts] are [n] statements of that grammar, each followed by the delimiter in force. *)
From Verif Require Import PropsSafe.
From Verif Require Export AcceptTop.
Local Open Scope string_scope.
Local Open Scope list_scope.

(** The tokens of [src] (without the end of input), none of them the word STDIN: COPY … FROM STDIN is not in the grammar. *)
Definition plain_tokens (src : text) (ts : list (tok * span)) : Prop :=
  tokens src = Some (inl (ts ++ [eof_of src])) /\ Forall (fun x => is_kw (fst x) "STDIN" = false) ts.
Lemma plain_noeof src ts : plain_tokens src ts -> Forall (fun x => fst x <> TEof) ts.
Proof.
  intros [T _]. destruct (tokens_layout src) as (o' & E & L). rewrite T in E. injection E as <-.
  assert (G : forall p r us, layout p r us -> forall ts x, us = ts ++ [x] -> Forall (fun x => fst x <> TEof) ts).
  { clear. induction 1 as [p g|p g w r t us Tg Wn Tt Te En L IH]; intros ts x E.
    - destruct ts as [|y [|]]; [constructor|discriminate..].
    - destruct ts as [|y ts]; [constructor|]. cbn in E. injection E as <- E. constructor; [exact Te|]. eapply IH; eauto. }
  eapply G; eauto.
Qed.
Lemma start src issues o ts : plain_tokens src ts -> exists st, parser_new src src issues o = XOk st st /\ left_ (eof_of src) st ts /\ s_opts st = o /\ s_issues st = issues /\ s_delim st = TSemiColon.
Proof.
  intros [T N]. destruct (ahead_tokens src src issues o _ 0 T) as (st & E & _ & O & I & D & _). exists st. split; [exact E|]. split; [|auto].
  intros k. destruct (ahead_tokens src src issues o _ k T) as (st1 & E1 & A & _). rewrite E in E1. injection E1 as <-. now rewrite <- app_assoc in A.
Qed.
Lemma no_new_errors issues st st' : s_issues st = issues -> grown st st' -> errors (new_issues issues (s_issues st')) = [] -> ne st' = ne st.
Proof.
  intros I (_ & _ & _ & new & E & _) H. unfold ne. rewrite E, I in *. rewrite new_issues_app in H. rewrite filter_app, app_length.
  change (filter err_issue new) with (errors new). rewrite H. cbn. lia.
Qed.

(** parse_statement: an accepted source is a statement of the grammar. *)
Theorem C51_statement : forall src issues o ts s out, plain_tokens src ts ->
  parse_statement_api src issues o = Returns (Some s) out -> errors (new_issues issues out) = [] ->
  derives o (N_ NStmt) (map fst ts).
Proof.
  intros src issues o ts s out P E H. destruct (start src issues o ts P) as (st & N & L & O & I & D).
  unfold parse_statement_api, parse_statement_n in E. rewrite N in E. pose proof (run_grown _ (parse_statement_body (knot (budget src))) st) as G.
  destruct (run _ st) as [x st'| | |] eqn:R; try discriminate. cbn [outcome_of] in E. injection E as -> <-.
  eapply kind_stmt, body_accepts; [| |exact L|eapply plain_noeof; eauto|exact R|eapply no_new_errors; eauto]; [reflexivity|].
  split; [exact O|]. eapply left_clean; [|exact L|apply P]. reflexivity.
Qed.
(** And the rule is the one of the kind of statement that is returned. *)
Definition rule_of_kind (s : stmt) : nt :=
  match s with
  | SCreateIndex _ | SCreateTable _ | SCreateView _ | SCreateTrigger _ | SCreateFunction _ | SCreateTypeEnum _ => NCreate
  | SSelect _ => NSingle | SUnion _ => NQuery | SInsertReplace _ => NInsert | SUpdate _ => NUpdate | SDelete _ => NDelete
  | SDropIndex _ | SDropTable _ | SDropFunction _ | SDropProcedure _ | SDropEvent _ | SDropDatabase _ | SDropServer _ | SDropTrigger _ | SDropView _ => NDrop
  | SAlterTable _ => NAlter | SSet _ => NSet | SSignal _ => NSignal | SBlock _ => NBlock | SIf _ => NIf | SCase _ => NCase | SDo _ => NDo
  | STruncateTable _ => NTruncate | SRenameTable _ => NRename | SWithQuery _ => NWith | SReturn _ => NReturn
  | _ => NStmt
  end.
Theorem C51_statement_kind : forall src issues o ts s out, plain_tokens src ts ->
  parse_statement_api src issues o = Returns (Some s) out -> errors (new_issues issues out) = [] ->
  derives o (N_ (rule_of_kind s)) (map fst ts).
Proof.
  intros src issues o ts s out P E H. destruct (start src issues o ts P) as (st & N & L & O & I & D).
  unfold parse_statement_api, parse_statement_n in E. rewrite N in E. pose proof (run_grown _ (parse_statement_body (knot (budget src))) st) as G.
  destruct (run _ st) as [x st'| | |] eqn:R; try discriminate. cbn [outcome_of] in E. injection E as -> <-.
  replace (rule_of_kind s) with (kind s) by now destruct s.
  apply (body_accepts o (eof_of src) eq_refl (budget src) st ts s st'); [|exact L|eapply plain_noeof; eauto|exact R|eapply no_new_errors; eauto].
  split; [exact O|]. eapply left_clean; [|exact L|apply P]. reflexivity.
Qed.
(** So what the grammar does not derive is reported. *)
Theorem C51_malformed_reported : forall src issues o ts x out, plain_tokens src ts -> ~ derives o (N_ NStmt) (map fst ts) ->
  parse_statement_api src issues o = Returns x out -> errors (new_issues issues out) <> [].
Proof.
  intros src issues o ts [s|] out P N E H.
  - apply N. eapply C51_statement; eauto.
  - apply C04_none_means_error in E. contradiction.
Qed.
(** parse_statements: an accepted source is a script of the grammar with as many statements as are returned. *)
Theorem C51_script : forall src issues o ts l out, plain_tokens src ts ->
  parse_statements src issues o = Returns l out -> errors (new_issues issues out) = [] ->
  script o TSemiColon (map fst ts) (length l).
Proof.
  intros src issues o ts l out P E H. destruct (start src issues o ts P) as (st & N & L & O & I & D).
  unfold parse_statements, parse_statements_n in E. rewrite N in E. pose proof (run_grown _ (parse_statements_loop (knot (budget src))) st) as G.
  destruct (run _ st) as [x st'| | |] eqn:R; try discriminate. cbn [outcome_of] in E. injection E as -> <-. unfold parse_statements_loop in R.
  destruct (loop_accepts o (eof_of src) eq_refl (knot (budget src)) (r_n (knot (budget src))) (kn_stmt _ _ (knot_accepts o (budget src))) [] st l st' ts O L (plain_noeof _ _ P) (proj2 P)) as (k & K & _ & S);
    [rewrite D; discriminate|exact R|eapply no_new_errors; eauto|]. rewrite D in S. cbn in K. now rewrite K, Nat.add_0_r.
Qed.

(** ** Consequences: parentheses *)
(** Reading [ts] at nesting depth [d]; [None]: a closing parenthesis without its opening one. *)
Fixpoint depth (ts : list tok) (d : nat) : option nat :=
  match ts with
  | [] => Some d
  | TLParen :: ts => depth ts (S d)
  | TRParen :: ts => match d with O => None | S d => depth ts d end
  | _ :: ts => depth ts d
  end.
Definition balanced (ts : list tok) : Prop := depth ts 0 = Some 0.
(** How a right-hand side changes the depth: closes [fst], then opens [snd]. *)
Definition then_ (x y : nat * nat) : nat * nat := (fst x + (fst y - snd x), snd y + (snd x - fst y)).
Fixpoint effect (a : g) : option (nat * nat) :=
  match a with
  | T TLParen => Some (0, 1) | T TRParen => Some (1, 0) | C CAny | N_ NDollarBody => None
  | W _ | T _ | C _ | N_ _ => Some (0, 0)
  | Seq l => fold_right (fun a x => match effect a, x with Some e, Some f => Some (then_ e f) | _, _ => None end) (Some (0, 0)) l
  | Alt l => if forallb (fun a => match effect a with Some (0, 0) => true | _ => false end) l then Some (0, 0) else None
  | Opt a | Star a => match effect a with Some (0, 0) => Some (0, 0) | _ => None end
  end.
Lemma depth_app ts us d : depth (ts ++ us) d = match depth ts d with Some e => depth us e | None => None end.
Proof. revert d. induction ts as [|t ts IH]; intros d; [reflexivity|]. destruct t; cbn; try apply IH. destruct d; auto. Qed.
Lemma rule_effect o n : is_postgresql (o_dialect o) = false -> n <> NDollarBody -> effect (rule o n) = Some (0, 0).
Proof. destruct o as [d a u c h]; cbn [o_dialect]; destruct d; try discriminate; intros _ N; destruct n; try destruct no_as; try destruct inner; destruct h; solve [reflexivity|now elim N]. Qed.
Lemma derives_effect o a ts : is_postgresql (o_dialect o) = false -> derives o a ts -> forall e, effect a = Some e -> forall d, fst e <= d -> depth ts d = Some (d - fst e + snd e).
Proof.
  intros Pg. induction 1 as [k t K|t|c t K|n ts D IH| |a l ts us D1 I1 D2 I2|a l ts J D IH|a|a ts D IH|a|a ts us D1 I1 D2 I2]; intros e E d0 L.
  - injection E as <-. destruct t; try discriminate. cbn. f_equal. lia.
  - destruct t; injection E as <-; cbn in *; try (f_equal; lia). destruct d0; [lia|]. f_equal. lia.
  - assert (X : depth [t] d0 = Some d0 /\ e = (0, 0)) by (destruct c, t; try discriminate; injection E as <-; split; reflexivity). destruct X as [-> ->]. cbn. f_equal. lia.
  - assert (X : n <> NDollarBody /\ e = (0, 0)) by (destruct n; try discriminate E; injection E as <-; (split; [discriminate|reflexivity])).
    destruct X as [X ->]. apply (IH (0, 0)); [now apply rule_effect|exact L].
  - injection E as <-. cbn. f_equal. lia.
  - cbn [effect fold_right] in E. destruct (effect a) as [x|]; [|discriminate]. change (match effect (Seq l) with Some f => Some (then_ x f) | None => None end = Some e) in E.
    destruct (effect (Seq l)) as [y|]; [|discriminate]. injection E as <-. unfold then_ in *. cbn [fst snd] in *. rewrite depth_app, (I1 x eq_refl d0) by lia.
    rewrite (I2 y eq_refl) by lia. f_equal. lia.
  - cbn [effect] in E. destruct (forallb _ l) eqn:F; [|discriminate]. injection E as <-. rewrite forallb_forall in F. specialize (F _ J).
    destruct (effect a) as [[[|] [|]]|]; try discriminate. now apply IH.
  - cbn [effect] in E. destruct (effect a) as [[[|] [|]]|]; try discriminate. injection E as <-. cbn. f_equal. lia.
  - cbn [effect] in E. destruct (effect a) as [[[|] [|]]|]; try discriminate. injection E as <-. now apply IH.
  - cbn [effect] in E. destruct (effect a) as [[[|] [|]]|]; try discriminate. injection E as <-. cbn. f_equal. lia.
  - rewrite depth_app. pose proof E as E'. cbn [effect] in E. destruct (effect a) as [[[|] [|]]|]; try discriminate. injection E as <-.
    rewrite (I1 (0, 0) eq_refl) by lia. cbn [fst snd]. rewrite (I2 (0, 0) E') by (cbn; lia). cbn. f_equal. lia.
Qed.
Lemma derives_balanced o ts : is_postgresql (o_dialect o) = false -> derives o (N_ NStmt) ts -> balanced ts.
Proof. intros Pg D. exact (derives_effect o _ _ Pg D (0, 0) eq_refl 0 (le_n 0)). Qed.
(** A statement accepted in the MariaDB or the SQLite dialect has balanced parentheses (in the PostgreSQL dialect the body of a function,
    [$$ … $$], is skipped token by token). *)
Theorem C51_balanced : forall src issues o ts s out, is_postgresql (o_dialect o) = false -> plain_tokens src ts ->
  parse_statement_api src issues o = Returns (Some s) out -> errors (new_issues issues out) = [] -> balanced (map fst ts).
Proof. intros src issues o ts s out Pg P E H. eapply derives_balanced; [exact Pg|]. eapply C51_statement; eauto. Qed.
Theorem C51_unbalanced_reported : forall src issues o ts x out, is_postgresql (o_dialect o) = false -> plain_tokens src ts -> ~ balanced (map fst ts) ->
  parse_statement_api src issues o = Returns x out -> errors (new_issues issues out) <> [].
Proof. intros src issues o ts x out Pg P N. eapply C51_malformed_reported; [exact P|]. intros D. apply N. eapply derives_balanced; eauto. Qed.
Lemma balanced_app ts us : balanced ts -> balanced us -> balanced (ts ++ us).
Proof. unfold balanced. intros A B. now rewrite depth_app, A. Qed.
Theorem C51_script_balanced : forall src issues o ts l out, is_postgresql (o_dialect o) = false -> plain_tokens src ts ->
  Forall (fun x => is_kw (fst x) "DELIMITER" = false) ts ->
  parse_statements src issues o = Returns l out -> errors (new_issues issues out) = [] -> balanced (map fst ts).
Proof.
  intros src issues o ts l out Pg P Nd E H. pose proof (C51_script _ _ _ _ _ _ P E H) as S. clear E H P.
  assert (N : Forall (fun t => is_kw t "DELIMITER" = false) (map fst ts)) by now rewrite Forall_map. remember (map fst ts) as us eqn:X. clear X Nd. remember TSemiColon as d.
  induction S as [d|d us n S IH|d k x us n K S IH|d vs us n D S IH]; subst d.
  - reflexivity.
  - inversion N; subst. unfold balanced. cbn. now apply IH.
  - inversion N; subst. congruence.
  - apply Forall_app in N as [_ N]. inversion N; subst. apply balanced_app; [eapply derives_balanced; eauto|]. unfold balanced. cbn. now apply IH.
Qed.

(** ** Consequences: the end of a statement *)
(** Tokens that call for something after them. *)
Definition dangling (t : tok) : bool :=
  existsb (tok_eqb t) [TComma; TLParen; TPeriod; TEq; TPlus; TMinus; TDiv; TLt; TGt; TLtEq; TGtEq; TNeq; TSpaceship; TAmpersand; TPipe; TDoubleAmpersand; TDoublePipe;
                       TShiftLeft; TShiftRight; TExclamationMark; TAt; TAtAtGlobal; TAtAtSession].
Fixpoint nullable (a : g) : bool :=
  match a with
  | N_ NStatements => true
  | W _ | T _ | C _ | N_ _ => false
  | Seq l => forallb nullable l
  | Alt l => existsb nullable l
  | Opt _ | Star _ => true
  end.
Fixpoint ending (a : g) : bool :=
  match a with
  | T t => negb (dangling t)
  | C CAny => false
  | W _ | C _ | N_ _ => true
  | Seq l => fst (fold_right (fun a x => ((if snd x : bool then ending a else true) && fst x, nullable a && snd x)) (true, true) l)
  | Alt l => forallb ending l
  | Opt a | Star a => ending a
  end.
Lemma rule_nullable o n : nullable (rule o n) = true -> n = NStatements.
Proof. destruct o as [d a u c h]; destruct n; try destruct no_as; try destruct inner; destruct d, h; cbn; solve [reflexivity|discriminate]. Qed.
Lemma derives_nullable o a ts : derives o a ts -> ts = [] -> nullable a = true.
Proof.
  induction 1 as [k t K|t|c t K|n ts D IH| |a l ts us D1 I1 D2 I2|a l ts J D IH|a|a ts D IH|a|a ts us D1 I1 D2 I2]; intros E; try discriminate E; try reflexivity.
  - apply IH, rule_nullable in E. now subst n.
  - apply app_eq_nil in E as [E1 E2]. cbn. rewrite (I1 E1). exact (I2 E2).
  - cbn. apply existsb_exists. eauto.
Qed.
Lemma seq_nullable l : snd (fold_right (fun a x => ((if snd x : bool then ending a else true) && fst x, nullable a && snd x)) (true, true) l) = nullable (Seq l).
Proof. induction l as [|a l IH]; [reflexivity|]. cbn [fold_right snd]. rewrite IH. reflexivity. Qed.
Lemma rule_ending o n : ending (rule o n) = true.
Proof. destruct o as [d a u c h]; destruct n; try destruct no_as; try destruct inner; destruct d, h; reflexivity. Qed.
Lemma derives_ending o a ts : derives o a ts -> ending a = true -> forall us t, ts = us ++ [t] -> dangling t = false.
Proof.
  assert (S1 : forall (u t : tok) us, [u] = us ++ [t] -> u = t) by (intros u t [|? [|]] E; [now injection E|discriminate..]).
  induction 1 as [k t K|t|c t K|n ts D IH| |a l ts vs D1 I1 D2 I2|a l ts J D IH|a|a ts D IH|a|a ts vs D1 I1 D2 I2]; intros E us u U;
    try (destruct us; discriminate U); try (apply S1 in U as ->).
  - destruct u; try discriminate. reflexivity.
  - cbn in E. now apply negb_true_iff in E.
  - destruct c, u; try discriminate; reflexivity.
  - apply (IH (rule_ending o n) us u U).
  - cbn [ending fold_right fst] in E. rewrite seq_nullable in E. apply andb_prop in E as [Ea El]. destruct vs as [|v vs].
    + rewrite (derives_nullable _ _ _ D2 eq_refl) in Ea. rewrite app_nil_r in U. eauto.
    + destruct (exists_last (l := v :: vs) ltac:(discriminate)) as (ws & w & W). rewrite W, app_assoc in U. apply app_inj_tail in U as [_ <-]. eapply I2; [exact El|exact W].
  - cbn in E. rewrite forallb_forall in E. eauto.
  - eauto.
  - destruct vs as [|v vs]; [rewrite app_nil_r in U; eauto|].
    destruct (exists_last (l := v :: vs) ltac:(discriminate)) as (ws & w & W). rewrite W, app_assoc in U. apply app_inj_tail in U as [_ <-]. eapply I2; [exact E|exact W].
Qed.
(** An accepted statement does not end in a comma, an opening parenthesis, a period or an operator. *)
Theorem C51_not_dangling : forall src issues o ts t sp s out, plain_tokens src (ts ++ [(t, sp)]) ->
  parse_statement_api src issues o = Returns (Some s) out -> errors (new_issues issues out) = [] -> dangling t = false.
Proof.
  intros src issues o ts t sp s out P E H. pose proof (C51_statement _ _ _ _ _ _ P E H) as D. rewrite map_app in D. eapply derives_ending; [exact D|reflexivity|reflexivity].
Qed.

(** ** The hypotheses are met *)
Definition demo : text := txt "INSERT INTO t (a, b) VALUES (1, ABS(2)), (3, 'x') ON DUPLICATE KEY UPDATE a = 4".
Definition toks_of (src : text) : list (tok * span) := match tokens src with Some (inl ts) => removelast ts | _ => [] end.
Lemma plain_check src : match tokens src with Some (inl _) => true | _ => false end = true ->
  forallb (fun x => negb (is_kw (fst x) "STDIN")) (toks_of src) = true -> plain_tokens src (toks_of src).
Proof.
  intros A B. unfold plain_tokens, toks_of in *. destruct (tokens src) as [[ts|]|] eqn:T; try discriminate. split.
  - destruct (View.ahead_tokens src src [] default_options ts 0 T) as (_ & _). f_equal. f_equal.
    destruct (tokens_layout src) as (o' & E & L). rewrite T in E. injection E as <-.
    assert (G : forall p r us, layout p r us -> us = removelast us ++ [(TEof, (p + blen r, p + blen r))]).
    { clear. induction 1 as [p g|p g w r t us Tg Wn Tt Te En L IH]; [reflexivity|]. rewrite !blen_app.
      replace (p + (blen g + (blen w + blen r))) with (p + blen g + blen w + blen r) by lia. destruct us as [|u us]; [destruct (removelast []); discriminate IH|].
      cbn [removelast app]. f_equal. exact IH. }
    exact (G _ _ _ L).
  - apply Forall_forall. intros x I. rewrite forallb_forall in B. apply B in I. now apply negb_true_iff.
Qed.
Example C51_applies : plain_tokens demo (toks_of demo) /\ length (toks_of demo) = 30 /\
  match parse_statement_api demo [] default_options with Returns (Some (SInsertReplace _)) [] => True | _ => False end.
Proof. split; [apply plain_check; reflexivity|]. vm_compute. split; [reflexivity|exact I]. Qed.
Definition demo2 : text := txt "SELECT 1; ; DROP TABLE t;".
Example C51_script_applies : plain_tokens demo2 (toks_of demo2) /\
  match parse_statements demo2 [] default_options with Returns [SSelect _; SDropTable _] [] => True | _ => False end.
Proof. split; [apply plain_check; reflexivity|]. vm_compute. exact I. Qed.
(** The grammar is not everything: unbalanced parentheses, a missing table, an operator without operand. *)
Definition bad : text := txt "SELECT ((1 + 2) FROM t".
Example C51_malformed_applies : plain_tokens bad (toks_of bad) /\ ~ derives default_options (N_ NStmt) (map fst (toks_of bad)).
Proof.
  split; [apply plain_check; reflexivity|]. intros D. apply derives_balanced in D; [|reflexivity]. vm_compute in D. discriminate D.
Qed.
Definition bad2 : text := txt "SELECT a, b FROM t WHERE a =".
Example C51_dangling_applies : plain_tokens bad2 (toks_of bad2) /\ ~ derives default_options (N_ NStmt) (map fst (toks_of bad2)).
Proof.
  split; [apply plain_check; reflexivity|]. intros D. assert (X := derives_ending _ _ _ D eq_refl (removelast (map fst (toks_of bad2))) TEq).
  vm_compute in X. discriminate (X eq_refl).
Qed.
