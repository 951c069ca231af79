(** Reading known tokens: what a program returns when the tokens ahead are given. *)
From Verif Require Export RunFacts LexStream.
Local Open Scope string_scope.
Local Open Scope list_scope.

Definition tks := list (tok * span).
(** The next tokens of a lexer begin with [ts]. *)
Fixpoint lexes (l : lex) (ts : tks) : Prop :=
  match ts with
  | [] => True
  | x :: r => exists l', next_token l = LOk x l' /\ lexes l' r
  end.
(** The tokens ahead of a parser (the current one first) begin with [ts]. *)
Definition ahead (st : pst) (ts : tks) : Prop :=
  match ts with
  | [] => True
  | x :: r => x = (s_tok st, s_span st) /\
      match s_peek st with
      | None => lexes (s_lex st) r
      | Some p => match r with [] => True | y :: r => y = p /\ lexes (s_lex st) r end
      end
  end.
(** Everything but the position and the number of arguments so far is the same; in particular no issue was added. *)
Record same (st st' : pst) : Prop := mkSame {
  sm_isrc : s_isrc st' = s_isrc st; sm_issues : s_issues st' = s_issues st;
  sm_delim : s_delim st' = s_delim st; sm_opts : s_opts st' = s_opts st; sm_permit : s_permit st' = s_permit st }.
Lemma same_refl st : same st st. Proof. now constructor. Qed.
Lemma same_trans a b c : same a b -> same b c -> same a c.
Proof. intros [] []. constructor; congruence. Qed.

(** Options, and a number for every argument written [?] or [%s], by its position. *)
Record reading := mkReading { rd_options :> options; rd_number : span -> N }.
(** For sources without such arguments. *)
Definition unnumbered (o : options) : reading := mkReading o (fun _ => 0%N).
Definition placeholder (o : options) (t : tok) : bool :=
  match t, o_arguments o with TQuestionMark, ArgQuestionMark => true | TPercentS, ArgPercent => true | _, _ => false end.
(** These arguments are numbered in order, from [n] on. *)
Fixpoint numbered_from (o : reading) (n : N) (ts : tks) : Prop :=
  match ts with
  | [] => True
  | (t, s) :: r => if placeholder o t then rd_number o s = n /\ numbered_from o (n + 1)%N r else numbered_from o n r
  end.
Definition before (o : reading) (st : pst) (ts : tks) : Prop := ahead st ts /\ numbered_from o (s_arg st) ts.
(** With options [o], reading [ts], program [p] returns [a] without issues and leaves [ts']. *)
Definition parses (o : reading) {A} (p : prog A) (ts : tks) (a : A) (ts' : tks) : Prop :=
  forall st, before o st ts -> s_opts st = o ->
  exists st', run p st = ROk a st' /\ before o st' ts' /\ same st st'.

Section Rules.
Variable o : reading.
Lemma pa_ret A (a : A) ts : parses o (Ret a) ts a ts.
Proof. intros st H _. exists st. split; [reflexivity|]. split; [exact H|apply same_refl]. Qed.
Lemma pa_bind A B (p : prog A) (k : A -> prog B) ts a ts1 b ts2 :
  parses o p ts a ts1 -> parses o (k a) ts1 b ts2 -> parses o (bind p k) ts b ts2.
Proof.
  intros H1 H2 st H O. destruct (H1 st H O) as (st1 & E1 & A1 & S1).
  destruct (H2 st1 A1) as (st2 & E2 & A2 & S2); [now rewrite (sm_opts _ _ S1)|].
  exists st2. rewrite run_bind, E1. split; [exact E2|]. split; [exact A2|eapply same_trans; eauto].
Qed.
Lemma pa_try A B (p : prog A) (k : option A -> prog B) ts a ts1 b ts2 :
  parses o p ts a ts1 -> parses o (k (Some a)) ts1 b ts2 -> parses o (Try p k) ts b ts2.
Proof.
  intros H1 H2 st H O. destruct (H1 st H O) as (st1 & E1 & A1 & S1).
  destruct (H2 st1 A1) as (st2 & E2 & A2 & S2); [now rewrite (sm_opts _ _ S1)|].
  exists st2. rewrite run_try, E1. split; [exact E2|]. split; [exact A2|eapply same_trans; eauto].
Qed.
Lemma pa_token x ts : parses o token (x :: ts) (fst x) (x :: ts).
Proof. intros st H _. exists st. rewrite run_token. split; [|split; [exact H|apply same_refl]]. destruct H as [[-> _] _]. reflexivity. Qed.
Lemma pa_span x ts : parses o cur_span (x :: ts) (snd x) (x :: ts).
Proof. intros st H _. exists st. rewrite run_span. split; [|split; [exact H|apply same_refl]]. destruct H as [[-> _] _]. reflexivity. Qed.
Lemma numbered_drop n x ts : placeholder o (fst x) = false -> numbered_from o n (x :: ts) -> numbered_from o n ts.
Proof. destruct x as [t s]. cbn. now intros ->. Qed.
(** Without [?] and [%s] there is nothing to be numbered. *)
Definition no_placeholders (w : options) : Prop := o_arguments w = ArgNone \/ o_arguments w = ArgDollar.
Lemma no_placeholder w t : no_placeholders w -> placeholder w t = false.
Proof. unfold placeholder. intros [-> | ->]; now destruct t. Qed.
Lemma numbered_none ts : forall n, no_placeholders o -> numbered_from o n ts.
Proof. induction ts as [|[t s] ts IH]; intros n H; cbn; [exact I|]. rewrite (no_placeholder _ _ H). auto. Qed.
(** The next token, whatever happens to the numbers. *)
Lemma ahead_next x y ts st : ahead st (x :: y :: ts) ->
  exists st', run next st = ROk tt st' /\ ahead st' (y :: ts) /\ same st st' /\ s_arg st' = s_arg st.
Proof.
  intros [-> H]. unfold next. rewrite run_perf. cbn [exec]. unfold p_next. destruct (s_peek st) as [[t s]|].
  - destruct H as [-> H]. eexists. split; [reflexivity|]. split; [now split|now split].
  - destruct H as (l' & E & H). destruct y as [t s]. rewrite E. eexists. split; [reflexivity|]. split; [now split|now split].
Qed.
Lemma pa_next x y ts : placeholder o (fst x) = false -> parses o next (x :: y :: ts) tt (y :: ts).
Proof.
  intros Px st [A N] _. destruct (ahead_next _ _ _ _ A) as (st' & R & A' & S' & E). exists st'. split; [exact R|]. split; [|exact S'].
  split; [exact A'|]. rewrite E. now apply (numbered_drop _ x).
Qed.
Lemma pa_peek x y ts : parses o peek (x :: y :: ts) (fst y) (x :: y :: ts).
Proof.
  intros st [[-> H] N] _. unfold peek. rewrite run_perf. cbn [exec]. unfold p_peek. destruct (s_peek st) as [[t s]|] eqn:E.
  - destruct H as [-> H]. exists st. split; [reflexivity|]. split; [|apply same_refl]. split; [|exact N]. split; [reflexivity|]. now rewrite E.
  - destruct H as (l' & E' & H). destruct y as [t s]. rewrite E'. eexists. split; [reflexivity|]. split; [split; [now split|exact N]|now constructor].
Qed.
Lemma pa_read A (p : prog A) (f : pst -> A) ts a :
  (forall st, run p st = ROk (f st) st) -> (forall st, s_opts st = o -> f st = a) -> parses o p ts a ts.
Proof. intros H1 H2 st H O. exists st. rewrite H1, (H2 st O). split; [reflexivity|]. split; [exact H|apply same_refl]. Qed.
Lemma pa_dialect ts : parses o dialect_ ts (o_dialect o) ts.
Proof. apply (pa_read _ _ (fun st => o_dialect (s_opts st))); [reflexivity|now intros st ->]. Qed.
Lemma pa_arguments ts : parses o (perf OArguments) ts (o_arguments o) ts.
Proof. apply (pa_read _ _ (fun st => o_arguments (s_opts st))); [reflexivity|now intros st ->]. Qed.
Lemma pa_listhack ts : parses o (perf OListHack) ts (o_list_hack o) ts.
Proof. apply (pa_read _ _ (fun st => o_list_hack (s_opts st))); [reflexivity|now intros st ->]. Qed.

(** ** Derived rules *)
Lemma pa_consume x y ts : placeholder o (fst x) = false -> parses o consume (x :: y :: ts) (snd x) (y :: ts).
Proof. intros H. eapply pa_bind; [apply pa_span|]. eapply pa_bind; [now apply pa_next|apply pa_ret]. Qed.
(** Punctuation: a token that is equal to itself and no argument. *)
Definition punct (t : tok) : bool := tok_eqb t t && negb (placeholder o t).
Lemma punct_facts t : punct t = true -> tok_eqb t t = true /\ placeholder o t = false.
Proof. unfold punct. intros H. apply andb_prop in H as [H1 H2]. apply negb_true_iff in H2. auto. Qed.
Lemma pa_consume_token t s y ts : punct t = true -> parses o (consume_token t) ((t, s) :: y :: ts) s (y :: ts).
Proof. intros (H & Q)%punct_facts. eapply pa_bind; [apply pa_token|]. cbn [fst]. rewrite H. now apply pa_consume. Qed.
(** An argument: its number is the one it is given. *)
Lemma pa_argument A (c : N -> span -> A) t s y ts : placeholder o t = true -> tok_eqb t t = true ->
  parses o (n <- perf OArg ;; s <- consume_token t ;; Ret (c n s)) ((t, s) :: y :: ts) (c (rd_number o s) s) (y :: ts).
Proof.
  intros Q Et st [A1 N] O. rewrite run_bind, run_perf. cbn [exec]. cbn [numbered_from] in N. rewrite Q in N. destruct N as [En N].
  set (st1 := mkPst _ _ _ _ _ _ _ _ _ _). assert (A2 : ahead st1 ((t, s) :: y :: ts)) by exact A1.
  unfold consume_token, consume. rewrite run_bind, run_bind, run_token. assert (Es : s_tok st1 = t /\ s_span st1 = s) by (destruct A1 as [H _]; now injection H as -> ->).
  destruct Es as [-> Es]. rewrite Et, run_bind, run_span, run_bind. destruct (ahead_next _ _ _ _ A2) as (st2 & R & A3 & S' & E). rewrite R. cbn [run].
  exists st2. rewrite Es, En. split; [reflexivity|]. split; [split; [exact A3|]|].
  - rewrite E. exact N.
  - destruct S'. now constructor.
Qed.
Lemma pa_skip_token t s y ts : punct t = true -> parses o (skip_token t) ((t, s) :: y :: ts) (Some s) (y :: ts).
Proof. intros (H & Q)%punct_facts. eapply pa_bind; [apply pa_token|]. cbn [fst]. rewrite H. eapply pa_bind; [now apply pa_consume|apply pa_ret]. Qed.
Lemma pa_skip_token_no w x ts : tok_eqb (fst x) w = false -> parses o (skip_token w) (x :: ts) None (x :: ts).
Proof. intros H. eapply pa_bind; [apply pa_token|]. rewrite H. apply pa_ret. Qed.

Lemma ahead_skip_token t s y ts st : tok_eqb t t = true -> ahead st ((t, s) :: y :: ts) ->
  exists st', run (skip_token t) st = ROk (Some s) st' /\ ahead st' (y :: ts) /\ same st st' /\ s_arg st' = s_arg st.
Proof.
  intros E A. assert (Es : s_tok st = t /\ s_span st = s) by (destruct A as [H _]; now injection H as -> ->). destruct Es as [Et Es].
  unfold skip_token, consume. rewrite run_bind, run_token, Et, E, run_bind, run_bind, run_span, run_bind. destruct (ahead_next _ _ _ _ A) as (st' & R & A' & S' & Q). rewrite R. cbn [run].
  exists st'. rewrite Es. auto.
Qed.

(** A keyword [k], spelled [v]; with the capitalisation lint on, in capitals. *)
Definition kw_tok (k : string) (t : tok) : Prop :=
  exists v, t = TIdent v (KW k) /\ (o_warn_caps o = true -> forallb is_ascii_uppercase v = true).
Lemma kw_eqb_refl k : kw_eqb k k = true.
Proof. destruct k; cbn; auto. apply String.eqb_refl. Qed.
Lemma kw_is k t : kw_tok k t -> is_kw t k = true.
Proof. intros (v & -> & _). apply kw_eqb_refl. Qed.
Lemma kw_is_not k k' t : kw_tok k t -> String.eqb k k' = false -> is_kw t k' = false.
Proof. intros (v & -> & _) H. exact H. Qed.
Lemma pa_lint_caps v s ts : (o_warn_caps o = true -> forallb is_ascii_uppercase v = true) -> parses o (perf (OLintCaps v s)) ts tt ts.
Proof.
  intros H st A O. exists st. rewrite run_perf. cbn [exec]. rewrite O. destruct (o_warn_caps o); [rewrite H by auto|rewrite andb_false_r];
    (split; [reflexivity|split; [exact A|apply same_refl]]).
Qed.
Lemma pa_consume_keyword k t s y ts : kw_tok k t -> parses o (consume_keyword k) ((t, s) :: y :: ts) s (y :: ts).
Proof.
  intros (v & -> & H). eapply pa_bind; [apply pa_token|]. cbn [fst]. rewrite kw_eqb_refl.
  eapply pa_bind; [apply pa_span|]. eapply pa_bind; [now apply pa_lint_caps|]. now apply pa_consume.
Qed.
Lemma pa_skip_keyword k t s y ts : kw_tok k t -> parses o (skip_keyword k) ((t, s) :: y :: ts) (Some s) (y :: ts).
Proof.
  intros H. eapply pa_bind; [apply pa_token|]. cbn [fst]. rewrite (kw_is _ _ H).
  eapply pa_try; [now apply pa_consume_keyword|]. apply pa_ret.
Qed.
Lemma pa_skip_keyword_no k x ts : is_kw (fst x) k = false -> parses o (skip_keyword k) (x :: ts) None (x :: ts).
Proof. intros H. eapply pa_bind; [apply pa_token|]. rewrite H. apply pa_ret. Qed.

(** A name [v]: an unquoted word that is not reserved (if the quoting lint is off), or a quoted one. *)
Definition unquoted_name (t : tok) (v : text) : Prop :=
  exists k, t = TIdent v k /\ kw_reserved k = false /\ k <> QUOTED_IDENTIFIER /\ o_warn_unquoted o = false.
Definition quoted_name (t : tok) (v : text) : Prop := t = TIdent v QUOTED_IDENTIFIER.
Definition name_tok (t : tok) (v : text) : Prop :=
  unquoted_name t v \/ (quoted_name t v /\ is_postgresql (o_dialect o) = false) \/
  (t = TDoubleQuotedString v /\ is_postgresql (o_dialect o) = true).
Lemma pa_lint_ident l v s ts : o_warn_unquoted o = false -> parses o (perf (OLintIdent l v s)) ts tt ts.
Proof.
  intros H st A O. exists st. rewrite run_perf. cbn [exec]. rewrite O, H. split; [reflexivity|split; [exact A|apply same_refl]].
Qed.
Lemma pa_name t v s y ts : name_tok t v -> parses o consume_plain_identifier ((t, s) :: y :: ts) (mkIdent v s) (y :: ts).
Proof.
  intros [(k & -> & R & Q & U)|[[-> P]|[-> P]]]; (eapply pa_bind; [apply pa_token|]); cbn [fst].
  - eapply pa_bind; [apply pa_span|]. eapply pa_bind; [apply pa_dialect|]. rewrite R.
    assert (E : kw_eqb k QUOTED_IDENTIFIER = false) by (destruct k; try reflexivity; congruence). rewrite E. cbn [negb snd].
    eapply pa_bind; [now apply pa_lint_ident|]. eapply pa_bind; [now apply pa_consume|apply pa_ret].
  - eapply pa_bind; [apply pa_span|]. eapply pa_bind; [apply pa_dialect|]. cbn [kw_reserved kw_eqb negb]. rewrite P.
    eapply pa_bind; [apply pa_ret|]. eapply pa_bind; [now apply pa_consume|apply pa_ret].
  - eapply pa_bind; [apply pa_dialect|]. rewrite P. eapply pa_bind; [now apply pa_consume|apply pa_ret].
Qed.
End Rules.

(** ** The tokens of a source *)
Lemma lexes_app l ts : forall us, lexes l (ts ++ us) -> lexes l ts.
Proof. revert l. induction ts as [|x ts IH]; intros l us; cbn; [auto|]. intros (l' & E & H). exists l'. eauto. Qed.
Definition eof_of (src : text) : tok * span := (TEof, (blen src, blen src)).
Lemma lexes_eof n l s l' : next_token l = LOk (TEof, s) l' -> lwf l -> lexes l' (repeat (TEof, s) n).
Proof.
  intros E W. pose proof (next_token_spec l W) as S. rewrite E in S.
  pose proof (token_at_facts _ _ _ _ W S) as (W' & Es & _ & _ & _ & _ & R & _).
  assert (X : next_token l' = LOk (TEof, s) l').
  { inversion S as [|g l2 A T Hr]; subst; [congruence|]. rewrite (next_token_eq l' W'), (R eq_refl), Es. reflexivity. }
  clear - X. induction n as [|n IH]; cbn; [exact I|eauto].
Qed.
Lemma lex_all_lexes n : forall l ts k, lwf l -> lex_all n l = Some (inl ts) ->
  exists ts0 s, ts = ts0 ++ [(TEof, s)] /\ lexes l (ts ++ repeat (TEof, s) k).
Proof.
  induction n as [|n IH]; intros l ts k W H; [discriminate|]. cbn [lex_all] in H.
  pose proof (next_token_spec l W) as S. destruct (next_token l) as [[t s] l'|] eqn:E; [|discriminate].
  assert (W' : lwf l') by (apply (token_at_facts _ _ _ _ W S)).
  destruct t; try (destruct (lex_all n l') as [[r|]|] eqn:L; try discriminate; injection H as <-;
    destruct (IH l' r k W' L) as (ts0 & s0 & -> & X); eexists (_ :: ts0), s0; split; [reflexivity|]; cbn; exists l'; now split).
  injection H as <-. exists [], s. split; [reflexivity|]. cbn. exists l'. split; [exact E|]. eapply lexes_eof; eauto.
Qed.
(** The parser starts before the tokens of the source, followed by any number of end-of-input tokens. *)
Theorem ahead_tokens src isrc issues o ts k : tokens src = Some (inl ts) ->
  exists st, parser_new src isrc issues o = XOk st st /\ ahead st (ts ++ repeat (eof_of src) k) /\
    s_opts st = o /\ s_issues st = issues /\ s_delim st = TSemiColon /\ s_permit st = false /\ s_isrc st = isrc /\ s_arg st = 0%N.
Proof.
  intros T. assert (Z : exists ts0, ts = ts0 ++ [eof_of src]).
  { destruct (tokens_layout src) as (o' & E' & L). rewrite T in E'. injection E' as <-. clear - L.
    assert (G : forall p r ts, layout p r ts -> exists ts0, ts = ts0 ++ [(TEof, (p + blen r, p + blen r))]).
    { clear. intros p r ts. induction 1 as [p g|p g w r t ts Tg Wn Tt Te En L (ts0 & E)].
      - now exists [].
      - exists ((t, (p + blen g, p + blen g + blen w)) :: ts0). rewrite E. cbn. rewrite !blen_app. replace (p + blen g + blen w + blen r) with (p + (blen g + (blen w + blen r))) by lia. reflexivity. }
    apply G in L. exact L. }
  unfold tokens in T. destruct (lex_all_lexes _ _ _ k (lwf_new src) T) as (ts0 & s & -> & L).
  destruct Z as (ts1 & Z). apply app_inj_tail in Z as [_ Z]. unfold parser_new. destruct ts0 as [|x ts0].
  - cbn [app] in *. destruct L as (l' & E & L). rewrite E. eexists. split; [reflexivity|]. split; [|now cbn]. cbn. rewrite <- Z. split; [reflexivity|exact L].
  - cbn [app] in *. destruct L as (l' & E & L). destruct x as [t s0]. rewrite E. eexists. split; [reflexivity|]. split; [|now cbn]. cbn. rewrite <- Z. split; [reflexivity|exact L].
Qed.

(** ** Sources *)
(** The tokens of the source are [ts], then the end of input; its [?] and [%s] arguments are numbered from 0 on, in the order they are written. *)
Definition written (o : reading) (src : text) (ts : tks) : Prop := tokens src = Some (inl (ts ++ [eof_of src])) /\ numbered_from o 0 ts.
Lemma written_plain (o : reading) src ts : tokens src = Some (inl (ts ++ [eof_of src])) -> no_placeholders o -> written o src ts.
Proof. intros H N. split; [exact H|]. now apply numbered_none. Qed.
Lemma numbered_end (o : reading) ts us : Forall (fun x => placeholder o (fst x) = false) us -> forall n, numbered_from o n ts -> numbered_from o n (ts ++ us).
Proof.
  intros U. induction ts as [|[t s] ts IH]; intros n; cbn [app numbered_from].
  - intros _. revert n. induction U as [|[t s] us H _ IH]; intros n; cbn [numbered_from]; [exact I|]. cbn [fst] in H. rewrite H. apply IH.
  - destruct (placeholder o t); [|apply IH]. intros [E H]. split; [exact E|]. now apply IH.
Qed.
Lemma before_tokens (o : reading) src issues ts k : written o src ts ->
  exists st, parser_new src src issues o = XOk st st /\ before o st (ts ++ repeat (eof_of src) (S k)) /\
    s_opts st = o /\ s_issues st = issues /\ s_delim st = TSemiColon /\ s_permit st = false /\ s_isrc st = src.
Proof.
  intros [T Nu]. destruct (ahead_tokens src src issues o _ k T) as (st & E & A & O & I & D & P & Is & R). exists st.
  rewrite <- app_assoc in A. split; [exact E|]. split; [|auto 6]. split; [exact A|]. rewrite R. apply numbered_end; [|exact Nu].
  apply Forall_forall. intros x H. apply repeat_spec in H as ->. reflexivity.
Qed.
(** The arguments of any source can be numbered that way: the number of an argument is how many are written before it. *)
Fixpoint place (o : options) (n : N) (ts : tks) (s : span) : N :=
  match ts with
  | [] => n
  | (t, s') :: r => if placeholder o t then (if Nat.eqb (fst s) (fst s') then n else place o (n + 1)%N r s) else place o n r s
  end.
Lemma place_numbers o f ts : forall n, NoDup (map (fun x : tok * span => fst (snd x)) ts) -> (forall x, In x ts -> placeholder o (fst x) = true -> f (snd x) = place o n ts (snd x)) ->
  numbered_from (mkReading o f) n ts.
Proof.
  induction ts as [|[t s] ts IH]; intros n D H; cbn [numbered_from]; [exact I|]. inversion D as [|? ? D1 D2]; subst. cbn [rd_options rd_number].
  destruct (placeholder o t) eqn:E.
  - split.
    + assert (X : f s = place o n ((t, s) :: ts) s) by (apply (H (t, s)); [now left|exact E]). rewrite X. cbn [place]. now rewrite E, Nat.eqb_refl.
    + apply IH; [exact D2|]. intros x X P. rewrite (H x) by (try exact P; now right). cbn [place]. rewrite E. destruct (Nat.eqb_spec (fst (snd x)) (fst s)) as [Es|]; [|reflexivity].
      exfalso. apply D1. cbn [snd]. rewrite <- Es. now apply (in_map (fun x : tok * span => fst (snd x))).
  - apply IH; [exact D2|]. intros x X P. rewrite (H x) by (try exact P; now right). cbn [place]. now rewrite E.
Qed.
Lemma layout_starts p r ts : layout p r ts -> NoDup (map (fun x : tok * span => fst (snd x)) ts) /\ Forall (fun x => p <= fst (snd x)) ts.
Proof.
  induction 1 as [p g|p g w r t ts Tg Wn Tt Te En L [IH1 IH2]]; cbn [map snd fst].
  - split; [constructor; [easy|constructor]|]. constructor; [cbn; lia|constructor].
  - assert (blen w > 0) by (destruct w as [|c w]; [easy|]; cbn; pose proof (utf8_len_pos c); lia). split.
    + constructor; [|exact IH1]. intros X. apply in_map_iff in X as (x & E & X). rewrite Forall_forall in IH2. specialize (IH2 _ X). cbn beta in IH2. unfold span in *. lia.
    + constructor; [cbn; lia|]. eapply Forall_impl; [|exact IH2]. cbn. lia.
Qed.
Theorem written_exists (o : options) src ts : tokens src = Some (inl (ts ++ [eof_of src])) -> written (mkReading o (place o 0 ts)) src ts.
Proof.
  intros T. split; [exact T|]. apply place_numbers; [|auto]. destruct (tokens_layout src) as (o' & E' & L). rewrite T in E'. injection E' as <-.
  destruct (layout_starts _ _ _ L) as [D _]. rewrite map_app in D. clear - D. remember (map _ ts) as l eqn:E. clear E. remember (map _ [eof_of src]) as l' eqn:E. clear E.
  induction l as [|x l IH]; [constructor|]. cbn [app] in D. inversion D as [|? ? D1 D2]; subst. constructor; [|now apply IH]. intros X. apply D1. apply in_or_app. now left.
Qed.
