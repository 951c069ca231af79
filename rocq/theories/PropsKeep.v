(** C53: no placeholder is lost.  C54: no literal is lost.  C55: no name is lost.

    In a source that is accepted without an Error every placeholder token ([?], [%s], [$n]) is an argument of the AST, at
    exactly the place where it is written and with the right number; and every number and string is a leaf of the AST, at the place where
    it is written and with its value; and every name is an identifier, function name or variable name of the AST.  (The values of string leaves are the subject of C45.) *)
From Verif Require Import PropsSafe.
From Verif Require Export KeepTop.
Local Open Scope string_scope.
Local Open Scope list_scope.

(** ** The specification *)
(** The tokens of [src], without the end of input. *)
Definition written_tokens (src : text) (ts : list (tok * span)) : Prop := tokens src = Some (inl (ts ++ [eof_of src])).
(** The tokens of placeholders; those that get their number by counting. *)
Definition is_placeholder (t : tok) : bool := match t with TQuestionMark | TPercentS | TDollarArg _ => true | _ => false end.
Definition is_counted (t : tok) : bool := match t with TQuestionMark | TPercentS => true | _ => false end.
(** How many of them are among [ts]. *)
Fixpoint counted_in (ts : list (tok * span)) : N :=
  match ts with [] => 0 | (t, _) :: ts => ((if is_counted t then 1 else 0) + counted_in ts)%N end.
(** The number of the placeholder [t] after the tokens [pre].  ([_LIST_] is counted too, so with that option on nothing is said here.) *)
Definition right_number (o : options) (pre : list (tok * span)) (t : tok) (n : N) : Prop :=
  match t with TDollarArg k => n = (k - 1)%N | _ => o_list_hack o = false -> n = counted_in pre end.
(** The source has no part that the parser skips: the data of COPY … FROM STDIN, exception handlers, [AS $$ … $$] bodies of functions. *)
Definition word_free (k : string) (ts : list (tok * span)) : Prop := Forall (fun x => is_kw (fst x) k = false) ts.
Definition nothing_skipped (o : options) (ts : list (tok * span)) : Prop :=
  word_free "STDIN" ts /\ word_free "EXCEPTION" ts /\
  (o_dialect o <> PostgreSQL \/ word_free "FUNCTION" ts \/ Forall (fun x => fst x <> TDoubleDollar) ts).
(** In scripts: no placeholder is made the delimiter. *)
Definition no_placeholder_delimiter (ts : list (tok * span)) : Prop :=
  forall pre x y post, ts = pre ++ x :: y :: post -> is_kw (fst x) "DELIMITER" = true -> is_placeholder (fst y) = false.

(** The tokens of literals.  (In PostgreSQL's dialect double quotes are for names.) *)
Definition is_literal (o : options) (t : tok) : bool :=
  match t with TInteger _ | TFloat _ | TSingleQuotedString _ => true | TDoubleQuotedString _ => negb (is_postgresql (o_dialect o)) | _ => false end.
(** The literal [t], written at [sp], is one of the leaves [l]: a number with its value at its place, a string in (one of several in a row that make up) a string leaf. *)
Definition in_tree (t : tok) (sp : span) (l : list (leaf * span)) : Prop :=
  match t with
  | TInteger ds => In (LInt (dec_value ds), sp) l
  | TFloat v => In (LFloat v, sp) l
  | _ => exists v s, In (LStr v, s) l /\ fst s <= fst sp /\ snd sp <= snd s end.
(** No NUMERIC(p, s), BIT(n) or INTERVAL: their values are kept in another form, not as leaves. *)
Definition not_split (ts : list (tok * span)) : Prop := word_free "INTERVAL" ts /\ word_free "NUMERIC" ts /\ word_free "BIT" ts.
(** The tokens of names: quoted ones, and words that are no keywords. *)
Definition is_name (t : tok) : bool := match t with TIdent _ (KW _) => false | TIdent _ _ => true | _ => false end.
(** The name [t], written at [sp], is an identifier of the AST, the name of a function or that of a variable. *)
Definition named_in {A} {I : Atoms A} (t : tok) (sp : span) (x : A) : Prop :=
  exists v k, t = TIdent v k /\ (In (v, sp) (idents_in x) \/ In (LFunc (FOther v), sp) (leaves_in x) \/ In (LVar (VOther v), sp) (leaves_in x)).
(** The source has no named constraint: that of CREATE TABLE is skipped, but for its name; and a name that is given to a column by ALTER TABLE … ADD CONSTRAINT name COLUMN is dropped. *)
Definition no_constraint (ts : list (tok * span)) : Prop := word_free "CONSTRAINT" ts.
(** In scripts: no name is made the delimiter. *)
Definition no_name_delimiter (ts : list (tok * span)) : Prop :=
  forall pre x y post, ts = pre ++ x :: y :: post -> is_kw (fst x) "DELIMITER" = true -> is_name (fst y) = false.
(** In scripts: no literal is made the delimiter. *)
Definition no_literal_delimiter (o : options) (ts : list (tok * span)) : Prop :=
  forall pre x y post, ts = pre ++ x :: y :: post -> is_kw (fst x) "DELIMITER" = true -> is_literal o (fst y) = false.

(** ** The start *)
Lemma noeof src ts : written_tokens src ts -> Forall (fun x => fst x <> TEof) ts.
Proof.
  intros T. destruct (tokens_layout src) as (o' & E & L). unfold written_tokens in T. rewrite T in E. injection E as <-.
  assert (G : forall p r us, layout p r us -> forall ts x, us = ts ++ [x] -> Forall (fun x => fst x <> TEof) ts).
  { clear. induction 1 as [p g|p g w r t us Tg Wn Tt Te En L IH]; intros ts x E.
    - destruct ts as [|y [|]]; [constructor|discriminate..].
    - destruct ts as [|y ts]; [constructor|]. cbn in E. injection E as <- E. constructor; [exact Te|]. eapply IH; eauto. }
  eapply G; eauto.
Qed.
Lemma one_place src ts pre post pre' post' t t' (sp : span) : written_tokens src ts -> ts = pre ++ (t, sp) :: post -> ts = pre' ++ (t', sp) :: post' -> pre' = pre /\ t' = t.
Proof.
  intros T E1 E2. destruct (tokens_layout src) as (o' & E & L). unfold written_tokens in T. rewrite T in E. injection E as <-. destruct (layout_starts _ _ _ L) as [D _]. clear L T.
  subst ts. revert pre' E2 D. generalize [eof_of src]. intros e. induction pre as [|x pre IH]; intros [|x' pre'] E2 D; cbn in E2; injection E2 as E0 E2.
  - subst t'. auto.
  - exfalso. subst x'. cbn [app map fst snd] in D. inversion D as [|? ? D1 D2]; subst. apply D1. rewrite map_app, map_app. apply in_or_app. left. apply in_or_app. right. now left.
  - exfalso. subst x. cbn [app map fst snd] in D. inversion D as [|? ? D1 D2]; subst. apply D1. rewrite map_app, map_app. apply in_or_app. left. apply in_or_app. right. now left.
  - subst x'. destruct (IH pre' E2) as [-> ->]; [|auto]. cbn [app map] in D. now inversion D.
Qed.
Lemma nodup_front X (l e : list X) : NoDup (l ++ e) -> NoDup l.
Proof. induction l as [|x l IH]; intros D; [constructor|]. cbn [app] in D. inversion D as [|? ? D1 D2]; subst. constructor; [|auto]. intros H. apply D1, in_or_app. now left. Qed.
Lemma starts_distinct src ts : written_tokens src ts -> NoDup (map (fun x => fst (snd x)) ts).
Proof.
  intros T. destruct (tokens_layout src) as (o' & E & L). unfold written_tokens in T. rewrite T in E. injection E as <-. destruct (layout_starts _ _ _ L) as [D _].
  rewrite map_app in D. eapply nodup_front. exact D.
Qed.
(** What is ahead is a part of the tokens and the end repeated. *)
Lemma ahead_prefix e st ts us : AcceptTop.left_ e st ts -> ahead st us -> exists k zs, ts ++ repeat e k = us ++ zs.
Proof.
  intros L A. destruct (AcceptTop.ahead_det _ _ _ A (L (length us))) as (zs & Z); [rewrite app_length, repeat_length; lia|]. eauto.
Qed.
Lemma in_tokens (e : tok * span) k : fst e = TEof -> forall xs (ts : tks) x zs, ts ++ repeat e k = xs ++ x :: zs -> fst x <> TEof -> exists ws, ts = xs ++ x :: ws /\ zs = ws ++ repeat e k.
Proof.
  intros He. induction xs as [|y xs IH]; intros ts x zs E N.
  - destruct ts as [|t ts].
    + cbn in E. destruct k; [discriminate|]. cbn in E. injection E as <- _. contradiction.
    + cbn in E. injection E as -> E. exists ts. auto.
  - destruct ts as [|t ts].
    + exfalso. assert (X : In x (repeat e k)) by (cbn [app] in E; rewrite E; right; apply in_or_app; right; now left). apply repeat_spec in X. congruence.
    + cbn in E. injection E as -> E. destruct (IH ts x zs E N) as (ws & -> & ->). exists ws. auto.
Qed.
Lemma counting_counted ts : counting ts = counted_in ts.
Proof. unfold counting. induction ts as [|[t s] ts IH]; [reflexivity|]. cbn [filter fst counted_in]. rewrite <- IH. unfold counted, is_counted. destruct t; cbn [length]; lia. Qed.

Section Start.
Context {E : kenv}.
Variables (src : text) (issues : list issue) (pre post : list (tok * span)) (t : tok).
Notation ts := (pre ++ (t, kspan) :: post).
Hypothesis T : written_tokens src ts.
Hypothesis M : mark t = true.
Hypothesis F : Forall (fun x => tame kkind kfun (fst x) = true) ts.
Hypothesis Hd : kscript = true -> forall pre' x y post', ts = pre' ++ x :: y :: post' -> is_kw (fst x) "DELIMITER" = true -> mark (fst y) = false.
Hypothesis Hp : match t with TDollarArg n => (n - 1)%N = knum | TInteger v => digits_value v = knum | TFloat v | TIdent v _ => v = kval | TSingleQuotedString _ | TDoubleQuotedString _ => True
  | _ => kfree = true \/ (silenced = false /\ counted_in pre = knum) end.
Lemma eof_tame l f : tame l f TEof = true.
Proof. destruct l, f as [[|]|]; reflexivity. Qed.
Lemma seen_most e k us zs : fst e = TEof -> NoDup (map (fun x => fst (snd x)) ts) -> ts ++ repeat e k = us ++ zs -> pc us <= 1.
Proof.
  intros He D Z. assert (X : pc (ts ++ repeat e k) <= 1).
  { rewrite pc_app. assert (R : pc (repeat e k) = 0). { clear Z. unfold pc. induction k as [|n IH]; [reflexivity|]. cbn [repeat filter]. assert (Se : seen e = false) by (unfold seen; now rewrite He). rewrite Se. exact IH. } rewrite R. clear - D.
    enough (pc ts <= 1) by lia. revert D. generalize ts. intros l. induction l as [|[u s] l IH]; [cbn; lia|]. intros D. cbn [map fst snd] in D. inversion D as [|? ? D1 D2]; subst. specialize (IH D2).
    unfold pc in *. cbn [filter]. destruct (seen (u, s)) eqn:S1; [|exact IH]. cbn [length]. enough (length (filter seen l) = 0) by lia.
    unfold seen in S1. apply andb_true_iff in S1 as [_ S1]. apply span_eqb_eq in S1. cbn [snd] in S1. subst s. clear - D1. induction l as [|[u s] l IH]; [reflexivity|]. cbn [filter].
    destruct (seen (u, s)) eqn:S1; [|apply IH; intros H; apply D1; now right].
    exfalso. unfold seen in S1. apply andb_true_iff in S1 as [_ S1]. apply span_eqb_eq in S1. cbn [snd] in S1. subst s. apply D1. now left. }
  rewrite Z, pc_app in X. lia.
Qed.
Lemma started : exists st, parser_new src src issues ko = XOk st st /\ AcceptTop.left_ (eof_of src) st ts /\ s_issues st = issues /\ kgood st.
Proof.
  destruct (ahead_tokens src src issues ko _ 0 T) as (st & E0 & _ & O & I & D & _ & _ & A0). exists st. split; [exact E0|].
  assert (L : AcceptTop.left_ (eof_of src) st ts).
  { intros k. destruct (ahead_tokens src src issues ko _ k T) as (st1 & E1 & A & _). rewrite E0 in E1. injection E1 as <-. now rewrite <- app_assoc in A. }
  split; [exact L|]. split; [exact I|]. split; [exact O|]. split.
  { intros us A. destruct (ahead_prefix _ _ _ _ L A) as (k & zs & Z). assert (X : Forall (fun x => tame kkind kfun (fst x) = true) (us ++ zs)).
    { rewrite <- Z. apply Forall_app. split; [exact F|]. apply Forall_forall. intros x H. apply repeat_spec in H as ->. apply eof_tame. }
    now apply Forall_app in X as [X _]. }
  split; [now rewrite D|]. split; [|split].
  - intros xs t1 ys A M1. destruct (ahead_prefix _ _ _ _ L A) as (k & zs & Z). rewrite <- (app_assoc xs) in Z. cbn [app] in Z.
    destruct (in_tokens (eof_of src) k eq_refl _ _ _ _ Z) as (ws & W1 & _); [cbn [fst]; intros X; now rewrite X in M1|].
    destruct (one_place src ts pre post xs ws t t1 kspan T eq_refl W1) as [-> ->]. rewrite A0, counting_counted.
    revert Hp. clear. destruct t; auto; intros [H|[H1 H2]]; auto; right; (split; [exact H1|]); lia.
  - intros Z xs x y ys A K. destruct (ahead_prefix _ _ _ _ L A) as (k & zs & Zs). rewrite <- (app_assoc xs) in Zs. cbn [app] in Zs.
    destruct (in_tokens (eof_of src) k eq_refl _ _ _ _ Zs) as (ws & W1 & W2); [intros X; rewrite X in K; discriminate|]. destruct ws as [|w ws].
    + cbn in W2. assert (X : In y (repeat (eof_of src) k)) by (rewrite <- W2; now left). apply repeat_spec in X as ->. reflexivity.
    + cbn in W2. injection W2 as -> _. specialize (Hd Z). exact (Hd _ _ _ _ W1 K).
  - intros us A. destruct (ahead_prefix _ _ _ _ L A) as (k & zs & Z). eapply seen_most; [|eapply starts_distinct; exact T|exact Z]. reflexivity.
Qed.
Lemma seen_once : 1 <= pc ts.
Proof. rewrite pc_app. unfold pc at 2. cbn [filter]. unfold seen at 1. cbn [fst snd]. rewrite M. rewrite (proj2 (span_eqb_eq _ _) eq_refl). cbn [andb length]. lia. Qed.
Lemma enough A (I : Atoms A) (a : A) st xs st' : AcceptTop.left_ (eof_of src) st ts -> keats st xs st' -> s_tok st' = TEof -> pc xs <= kW a -> 1 <= kW a.
Proof.
  intros L [K _] Te W. destruct (all_read (eof_of src) _ _ _ _ eq_refl L (noeof _ _ T) K Te) as (ys & ->). rewrite pc_app in W. pose proof seen_once as S1. lia.
Qed.
Lemma no_errors st st' : s_issues st = issues -> grown st st' -> errors (new_issues issues (s_issues st')) = [] -> ne st' = ne st.
Proof.
  intros I (_ & _ & _ & new & E0 & _) H. unfold ne. rewrite E0, I in *. rewrite new_issues_app in H. rewrite filter_app, app_length.
  change (filter err_issue new) with (errors new). rewrite H. cbn. lia.
Qed.
Lemma statement_kept x out : parse_statement_api src issues ko = Returns x out -> errors (new_issues issues out) = [] -> 1 <= kW x.
Proof.
  intros E0 H. destruct started as (st & N & L & I & G). 
  unfold parse_statement_api, parse_statement_n in E0. rewrite N in E0. pose proof (run_grown _ (parse_statement_body (knot (budget src))) st) as Gr.
  destruct (run _ st) as [y st'| | |] eqn:R; try discriminate. cbn [outcome_of] in E0. injection E0 as -> <-.
  assert (Q : ne st' = ne st) by (eapply no_errors; eauto).
  unfold parse_statement_body in R. rewrite run_try in R. pose proof (@kk_item _ _ (knot_keeps (S (budget src))) (s_tok st) st G eq_refl) as HS. change (r_stmt (knot (S (budget src)))) with (parse_statement (knot (budget src))) in HS.
  destruct (run (parse_statement (knot (budget src))) st) as [z st1|st1|w|] eqn:E1; try discriminate.
  - pose proof (grown_ok _ _ _ _ _ E1) as Q1. pose proof (grown_ok _ _ _ _ _ R) as Q2. destruct HS as (xs & K & [W _]); [lia|]. destruct z as [v|].
    + rewrite run_bind, run_token in R. destruct (tok_eqb (s_tok st1) TEof) eqn:Te; cbn [negb] in R.
      * cbn [bind run] in R. injection R as <- <-. eapply enough; eauto. now apply tok_eqb_eq.
      * exfalso. rewrite run_bind in R. destruct (run (expected_error _) st1) as [u st2| | |] eqn:E2; try discriminate. apply AcceptTop.exp_error_grows in E2. pose proof (grown_ok _ _ _ _ _ R). lia.
    + exfalso. rewrite run_bind in R. destruct (run (expected_error _) st1) as [u st2| | |] eqn:E2; try discriminate. apply AcceptTop.exp_error_grows in E2. pose proof (grown_ok _ _ _ _ _ R). lia.
  - exfalso. pose proof (grown_ok _ _ _ _ _ R). lia.
Qed.
Lemma statements_kept x out : kscript = true -> parse_statements src issues ko = Returns x out -> errors (new_issues issues out) = [] -> 1 <= kW x.
Proof.
  intros Sc E0 H. destruct started as (st & N & L & I & G). 
  unfold parse_statements, parse_statements_n in E0. rewrite N in E0. pose proof (run_grown _ (parse_statements_loop (knot (budget src))) st) as Gr.
  destruct (run _ st) as [y st'| | |] eqn:R; try discriminate. cbn [outcome_of] in E0. injection E0 as -> <-.
  assert (Q : ne st' = ne st) by (eapply no_errors; eauto).
  unfold parse_statements_loop in R. pose proof (knot_keeps (budget src)) as Kn.
  assert (Te : s_tok st' = TEof) by (eapply loop_end; eauto).
  pose proof (kp_loop _ _ uW uW (parse_statements_step (knot (budget src)))) as KL.
  assert (S1 : forall l t c, uW l c -> kp t c (fun r n => match r with inl y => uW y n | inr a => uW a n end) (parse_statements_step (knot (budget src)) l)).
  { intros l u c U. eapply kp_conseq; [apply (parse_statements_step_k (knot (budget src))); [exact Sc|exact U]|]. intros [a|a] m; unfold uW; rewrite ?kW_inl, ?kW_inr; auto. }
  specialize (KL S1 (r_n (knot (budget src))) [] (s_tok st) 0 ltac:(unfold uW; lia) st G eq_refl). rewrite R in KL. destruct (KL Q) as (xs & K & W).
  eapply enough; eauto.
Qed.
End Start.

(** ** Placeholders *)
Section Args.
Variables (o : options) (f : option bool) (sc : bool) (sp : span) (num : N) (free : bool).
Definition arg_wt (a : atom) : nat := match a with AArg n s => if span_eqb s sp && ((n =? num)%N || free) then 1 else 0 | _ => 0 end.
Definition wenv_arg : wenv.
Proof. refine (mkWenv arg_wt _). intros []; try reflexivity; discriminate. Defined.
Hypothesis Hf : f = None -> is_postgresql (o_dialect o) = false.
Definition kenv_arg : kenv.
Proof.
  refine (mkKenv wenv_arg o KArgs f sc sp num [] free Hf _ _ _ _ _ _ _ _); try discriminate; [|reflexivity..]. intros _ n H. cbn [kwt wenv_arg arg_wt]. rewrite (proj2 (span_eqb_eq _ _) eq_refl). cbn [andb].
  destruct H as [->|H]; [rewrite N.eqb_refl|rewrite H, orb_true_r]; cbn; lia.
Defined.
Lemma weight_arg A (I : Atoms A) (a : A) : 1 <= @kW wenv_arg A I a -> exists n, In (n, sp) (args_in a) /\ (n = num \/ free = true).
Proof.
  unfold kW, args_in. generalize (atoms a). intros l. induction l as [|x l IH]; [cbn; lia|]. cbn [flat_map]. intros H.
  destruct (Nat.eq_dec (arg_wt x) 0) as [Z|Z].
  - destruct IH as (n & H1 & H2); [|exists n; split; [apply in_or_app; now right|exact H2]]. change (@Wk wenv_arg (x :: l)) with (arg_wt x + @Wk wenv_arg l) in H. lia.
  - destruct x; try (now elim Z). cbn [arg_wt] in Z. destruct (_ && _) eqn:B; [|now elim Z]. apply andb_true_iff in B as [B1 B2]. apply span_eqb_eq in B1. subst s. exists n. split.
    + apply in_or_app. left. now left.
    + apply orb_true_iff in B2 as [B2|B2]; [left; now apply N.eqb_eq|now right].
Qed.
End Args.
Definition its_number (t : tok) (pre : list (tok * span)) : N := match t with TDollarArg k => (k - 1)%N | _ => counted_in pre end.
Lemma right_one o t pre n : is_placeholder t = true -> n = its_number t pre \/ is_counted t && o_list_hack o = true -> right_number o pre t n.
Proof.
  intros M H. unfold right_number, its_number in *. destruct t; try discriminate M; cbn [is_counted andb] in H; destruct H as [H|H]; auto; try discriminate; intros X; congruence.
Qed.
Lemma arg_place o f sc sp t pre Hf : is_placeholder t = true ->
  match t with TDollarArg n => (n - 1)%N = its_number t pre | TInteger v => digits_value v = its_number t pre | TFloat v | TIdent v _ => v = [] | TSingleQuotedString _ | TDoubleQuotedString _ => True
  | _ => is_counted t && o_list_hack o = true \/ (@silenced (kenv_arg o f sc sp (its_number t pre) (is_counted t && o_list_hack o) Hf) = false /\ counted_in pre = its_number t pre) end.
Proof.
  intros M. destruct t; try discriminate M; cbn [is_counted its_number andb]; try reflexivity; (destruct (o_list_hack o) eqn:L; [now left|right; split; [unfold silenced; cbn [ko kkind kenv_arg]; now rewrite L|reflexivity]]).
Qed.
Lemma arg_mark o f sc sp n b Hf t : @mark (kenv_arg o f sc sp n b Hf) t = is_placeholder t.
Proof. now destruct t. Qed.

(** ** Literals *)
Definition lit_class (o : options) (t : tok) : option lclass :=
  match t with TInteger _ => Some LkInt | TFloat _ => Some LkFloat | TSingleQuotedString _ => Some LkStr
  | TDoubleQuotedString _ => if is_postgresql (o_dialect o) then None else Some LkStr | _ => None end.
Section Lits.
Variables (o : options) (f : option bool) (sc : bool) (sp : span) (c : lclass) (num : N) (val : text).
Definition inside (a b : span) : bool := Nat.leb (fst b) (fst a) && Nat.leb (snd a) (snd b).
Definition lit_wt (a : atom) : nat :=
  match a, c with
  | ALeaf (LInt n) s, LkInt => if span_eqb s sp && (n =? num)%N then 1 else 0
  | ALeaf (LFloat v) s, LkFloat => if span_eqb s sp && text_eqb v val then 1 else 0
  | ALeaf (LStr _) s, LkStr => if inside sp s then 1 else 0
  | _, _ => 0 end.
Definition wenv_lit : wenv.
Proof. refine (mkWenv lit_wt _). intros [| | | | |l s| |]; try reflexivity; destruct l; try reflexivity; discriminate. Defined.
Hypothesis Hf : f = None -> is_postgresql (o_dialect o) = false.
Definition kenv_lit : kenv.
Proof.
  refine (mkKenv wenv_lit o (KLits c) f sc sp num val false Hf _ _ _ _ _ _ _ _); try discriminate; try reflexivity.
  - intros H. now elim (H c).
  - intros H. injection H as H. cbn [kwt wenv_lit]. unfold lit_wt. rewrite H, (proj2 (span_eqb_eq _ _) eq_refl), N.eqb_refl. cbn. lia.
  - intros H. injection H as H. cbn [kwt wenv_lit]. unfold lit_wt. rewrite H, (proj2 (span_eqb_eq _ _) eq_refl), text_eqb_refl. cbn. lia.
  - intros H v s H1 H2. injection H as H. cbn [kwt wenv_lit]. unfold lit_wt. rewrite H. unfold inside. apply Nat.leb_le in H1, H2. rewrite H1, H2. cbn. lia.
Defined.
(** The literal of interest is a leaf. *)
Definition has_leaf (l : list (leaf * span)) : Prop :=
  match c with
  | LkInt => In (LInt num, sp) l
  | LkFloat => In (LFloat val, sp) l
  | LkStr => exists v s, In (LStr v, s) l /\ fst s <= fst sp /\ snd sp <= snd s end.
Lemma weight_lit A (I : Atoms A) (a : A) : 1 <= @kW wenv_lit A I a -> has_leaf (leaves_in a).
Proof.
  unfold kW, leaves_in. generalize (atoms a). intros l. induction l as [|x l IH]; [cbn; lia|]. cbn [flat_map]. intros H.
  destruct (Nat.eq_dec (lit_wt x) 0) as [Z|Z].
  - assert (Y : has_leaf (flat_map (fun x => match x with ALeaf k s => [(k, s)] | _ => [] end) l)).
    { apply IH. change (@Wk wenv_lit (x :: l)) with (lit_wt x + @Wk wenv_lit l) in H. lia. }
    unfold has_leaf in *. destruct c.
    + apply in_or_app. now right.
    + apply in_or_app. now right.
    + destruct Y as (v & s & Y1 & Y2). exists v, s. split; [apply in_or_app; now right|exact Y2].
  - clear IH H. unfold has_leaf. unfold lit_wt in Z. destruct x as [| | | | |k s| |]; try (now elim Z). destruct k; try (now elim Z); destruct c; try (now elim Z).
    + destruct (_ && _) eqn:B; [|now elim Z]. apply andb_true_iff in B as [B1 B2]. apply span_eqb_eq in B1. apply N.eqb_eq in B2. subst. now left.
    + destruct (_ && _) eqn:B; [|now elim Z]. apply andb_true_iff in B as [B1 B2]. apply span_eqb_eq in B1. apply text_eqb_eq in B2. subst. now left.
    + destruct (inside sp s) eqn:B; [|now elim Z]. apply andb_true_iff in B as [B1 B2]. apply Nat.leb_le in B1, B2. exists v, s. split; [now left|lia].
Qed.
End Lits.
(** ** Names *)
Section Names.
Variables (o : options) (sc : bool) (sp : span) (val : text).
Definition name_wt (a : atom) : nat :=
  match a with
  | AIdent v s | ALeaf (LFunc (FOther v)) s | ALeaf (LVar (VOther v)) s => if span_eqb s sp && text_eqb v val then 1 else 0
  | _ => 0 end.
Definition wenv_name : wenv.
Proof. refine (mkWenv name_wt _). intros [| | | | |l s| |]; try reflexivity; try discriminate; destruct l as [ | | | | | | | | | |f|u|v| | | | | ]; try reflexivity; [destruct f|destruct v]; try reflexivity; discriminate. Defined.
Hypothesis Hd : is_postgresql (o_dialect o) = false.
Definition kenv_name : kenv.
Proof.
  refine (mkKenv wenv_name o KNames None sc sp 0%N val false (fun _ => Hd) _ _ _ _ _ _ _ _); try discriminate; try (intros _; exact Hd).
  - intros _ [] s; try reflexivity; discriminate.
  - intros H. now elim H.
  - intros _. cbn [kwt wenv_name name_wt]. rewrite (proj2 (span_eqb_eq _ _) eq_refl), text_eqb_refl. cbn. lia.
Defined.
Lemma weight_name A (I : Atoms A) (a : A) k : 1 <= @kW wenv_name A I a -> named_in (TIdent val k) sp a.
Proof.
  intros H. exists val, k. split; [reflexivity|]. revert H. unfold kW, leaves_in, idents_in. generalize (atoms a). intros l. induction l as [|x l IH]; [cbn; lia|]. cbn [flat_map]. intros H.
  destruct (Nat.eq_dec (name_wt x) 0) as [Z|Z].
  - change (@Wk wenv_name (x :: l)) with (name_wt x + @Wk wenv_name l) in H. destruct IH as [Y|[Y|Y]]; [lia|left|right; left|right; right]; apply in_or_app; now right.
  - clear IH H. destruct x as [|v s| | | |k0 s| |]; try (now elim Z).
    + left. apply in_or_app. left. cbn [name_wt] in Z. destruct (_ && _) eqn:B; [|now elim Z]. apply andb_true_iff in B as [B1 B2]. apply span_eqb_eq in B1. apply text_eqb_eq in B2. subst. now left.
    + destruct k0 as [ | | | | | | | | | |f|u|v| | | | | ]; try (now elim Z); [right; left|right; right]; apply in_or_app; left; [destruct f|destruct v]; try (now elim Z);
        cbn [name_wt] in Z; (destruct (_ && _) eqn:B; [|now elim Z]); apply andb_true_iff in B as [B1 B2]; apply span_eqb_eq in B1; apply text_eqb_eq in B2; subst; now left.
Qed.
End Names.
(** ** The theorems *)
Lemma why_tame_kind k o (ts : list (tok * span)) : nothing_skipped o ts -> (k = KArgs \/ (exists c, k = KLits c) /\ not_split ts) ->
  exists f, Forall (fun x => tame k f (fst x) = true) ts /\ (f = None -> is_postgresql (o_dialect o) = false).
Proof.
  intros (A & B & C) D. assert (X : forall f, Forall (fun x => match f with Some true => negb (is_kw (fst x) "FUNCTION") | Some false => negb (tok_eqb (fst x) TDoubleDollar) | None => true end = true) ts -> Forall (fun x => tame k f (fst x) = true) ts).
  { intros f Y. unfold word_free in A, B. rewrite Forall_forall in *. intros x I. unfold tame. rewrite (A x I), (B x I), (Y x I). cbn [negb]. rewrite !andb_true_r. destruct D as [->|[[c ->] (D1 & D2 & D3)]]; [reflexivity|].
    unfold word_free in D1, D2, D3. rewrite Forall_forall in *. now rewrite (D1 x I), (D2 x I), (D3 x I). }
  destruct C as [C|[C|C]].
  - exists None. split; [apply X, Forall_forall; auto|]. intros _. destruct (o_dialect o); auto; contradiction.
  - exists (Some true). split; [|discriminate]. apply X. unfold word_free in C. rewrite Forall_forall in *. intros x I. now rewrite (C x I).
  - exists (Some false). split; [|discriminate]. apply X. rewrite Forall_forall in *. intros x I. destruct (tok_eqb (fst x) TDoubleDollar) eqn:D0; [|reflexivity]. apply tok_eqb_eq in D0. elim (C x I D0).
Qed.
(** parse_statement: every placeholder that is written is an argument of the AST, at its place and with its number. *)
Theorem C53_statement src issues o pre t sp post x out :
  written_tokens src (pre ++ (t, sp) :: post) -> is_placeholder t = true -> nothing_skipped o (pre ++ (t, sp) :: post) ->
  parse_statement_api src issues o = Returns x out -> errors (new_issues issues out) = [] ->
  exists n, In (n, sp) (args_in x) /\ right_number o pre t n.
Proof.
  intros T M S E H. destruct (why_tame_kind KArgs _ _ S (or_introl eq_refl)) as (f & F & Hf).
  destruct (weight_arg sp (its_number t pre) (is_counted t && o_list_hack o) _ _ x) as (n & H1 & H2); [|exists n; split; [exact H1|now apply right_one]].
  apply (@statement_kept (kenv_arg o f false sp (its_number t pre) (is_counted t && o_list_hack o) Hf) src issues pre post t T) with (out := out); try (now rewrite arg_mark); auto; try discriminate. now apply arg_place.
Qed.
(** parse_statements. *)
Theorem C53_statements src issues o pre t sp post x out :
  written_tokens src (pre ++ (t, sp) :: post) -> is_placeholder t = true -> nothing_skipped o (pre ++ (t, sp) :: post) -> no_placeholder_delimiter (pre ++ (t, sp) :: post) ->
  parse_statements src issues o = Returns x out -> errors (new_issues issues out) = [] ->
  exists n, In (n, sp) (args_in x) /\ right_number o pre t n.
Proof.
  intros T M S D E H. destruct (why_tame_kind KArgs _ _ S (or_introl eq_refl)) as (f & F & Hf).
  destruct (weight_arg sp (its_number t pre) (is_counted t && o_list_hack o) _ _ x) as (n & H1 & H2); [|exists n; split; [exact H1|now apply right_one]].
  apply (@statements_kept (kenv_arg o f true sp (its_number t pre) (is_counted t && o_list_hack o) Hf) src issues pre post t T) with (out := out); try (now rewrite arg_mark); auto.
  now apply arg_place.
Qed.

(** parse_statement: every literal that is written is a leaf of the AST, at its place and with its value. *)
Lemma lit_mark o f sc sp num val Hf t c : lit_class o t = Some c -> @mark (kenv_lit o f sc sp c num val Hf) t = true.
Proof. unfold mark. cbn [kkind ko kenv_lit]. destruct t; cbn [lit_class]; try discriminate; intros H; first [injection H as <-; reflexivity|destruct (is_postgresql (o_dialect o)); [discriminate|]; injection H as <-; reflexivity]. Qed.
Lemma lit_mark_only o f sc sp num val Hf t c : @mark (kenv_lit o f sc sp c num val Hf) t = true -> is_literal o t = true.
Proof. unfold mark, is_literal. cbn [kkind ko kenv_lit]. destruct t, c; try discriminate; auto. Qed.
Lemma literal_class o t : is_literal o t = true -> exists c, lit_class o t = Some c.
Proof. destruct t; cbn [lit_class is_literal]; try discriminate; try (intros _; eexists; reflexivity); destruct (is_postgresql (o_dialect o)); try discriminate; intros _; eexists; reflexivity. Qed.
Lemma digits_dec v : digits_value v = dec_value v. Proof. reflexivity. Qed.
Definition lit_num (t : tok) : N := match t with TInteger v => dec_value v | _ => 0%N end.
Definition lit_val (t : tok) : text := match t with TFloat v => v | _ => [] end.
Lemma lit_place o f sc sp t pre c Hf : lit_class o t = Some c ->
  match t with TDollarArg n => (n - 1)%N = lit_num t | TInteger v => digits_value v = lit_num t | TFloat v | TIdent v _ => v = lit_val t | TSingleQuotedString _ | TDoubleQuotedString _ => True
  | _ => @kfree (kenv_lit o f sc sp c (lit_num t) (lit_val t) Hf) = true \/ (@silenced (kenv_lit o f sc sp c (lit_num t) (lit_val t) Hf) = false /\ counted_in pre = lit_num t) end.
Proof. destruct t; cbn [lit_class]; try discriminate; auto. Qed.
Lemma leaf_of o t c sp l : lit_class o t = Some c -> has_leaf sp c (lit_num t) (lit_val t) l -> in_tree t sp l.
Proof. unfold has_leaf, in_tree. destruct t; cbn [lit_class]; try discriminate; intros H; first [injection H as <-; intros X; exact X|destruct (is_postgresql (o_dialect o)); [discriminate|]; injection H as <-; intros X; exact X]. Qed.
Theorem C54_statement src issues o pre t sp post x out :
  written_tokens src (pre ++ (t, sp) :: post) -> is_literal o t = true -> nothing_skipped o (pre ++ (t, sp) :: post) -> not_split (pre ++ (t, sp) :: post) ->
  parse_statement_api src issues o = Returns x out -> errors (new_issues issues out) = [] ->
  in_tree t sp (leaves_in x).
Proof.
  intros T M S Sp E H. destruct (literal_class _ _ M) as (c & Hc). destruct (why_tame_kind (KLits c) _ _ S (or_intror (conj (ex_intro _ c eq_refl) Sp))) as (f & F & Hf).
  apply (leaf_of o t c); [exact Hc|]. apply weight_lit.
  apply (@statement_kept (kenv_lit o f false sp c (lit_num t) (lit_val t) Hf) src issues pre post t T) with (out := out); auto; try discriminate.
  - now apply lit_mark.
  - now apply lit_place.
Qed.
(** parse_statements. *)
Theorem C54_statements src issues o pre t sp post x out :
  written_tokens src (pre ++ (t, sp) :: post) -> is_literal o t = true -> nothing_skipped o (pre ++ (t, sp) :: post) -> not_split (pre ++ (t, sp) :: post) ->
  no_literal_delimiter o (pre ++ (t, sp) :: post) ->
  parse_statements src issues o = Returns x out -> errors (new_issues issues out) = [] ->
  in_tree t sp (leaves_in x).
Proof.
  intros T M S Sp D E H. destruct (literal_class _ _ M) as (c & Hc). destruct (why_tame_kind (KLits c) _ _ S (or_intror (conj (ex_intro _ c eq_refl) Sp))) as (f & F & Hf).
  apply (leaf_of o t c); [exact Hc|]. apply weight_lit.
  apply (@statements_kept (kenv_lit o f true sp c (lit_num t) (lit_val t) Hf) src issues pre post t T) with (out := out); auto.
  - now apply lit_mark.
  - intros _ a u v b E1 K. specialize (D _ _ _ _ E1 K). destruct (mark (fst v)) eqn:Mv; [|reflexivity]. apply lit_mark_only in Mv. congruence.
  - now apply lit_place.
Qed.

(** parse_statement: every name that is written is an identifier of the AST, or the name of a function or variable there, at its place. *)
Lemma name_mark o sc sp val Hd t : @mark (kenv_name o sc sp val Hd) t = is_name t.
Proof. now destruct t as [| | | | | | | | | | | | | | | | |? []| | | | | | | | | | | | | | | | | | | | | | | | | | | | | | | | ]. Qed.
Lemma name_tame o (ts : list (tok * span)) : nothing_skipped o ts -> no_constraint ts -> Forall (fun x => tame KNames None (fst x) = true) ts.
Proof. intros (A & B & _) C. unfold no_constraint, word_free in *. rewrite Forall_forall in *. intros x I. unfold tame. now rewrite (A x I), (B x I), (C x I). Qed.
Lemma not_pg o : o_dialect o <> PostgreSQL -> is_postgresql (o_dialect o) = false.
Proof. destruct (o_dialect o); auto. contradiction. Qed.
Theorem C55_statement src issues o pre t sp post x out :
  written_tokens src (pre ++ (t, sp) :: post) -> is_name t = true -> o_dialect o <> PostgreSQL ->
  nothing_skipped o (pre ++ (t, sp) :: post) -> no_constraint (pre ++ (t, sp) :: post) ->
  parse_statement_api src issues o = Returns x out -> errors (new_issues issues out) = [] ->
  named_in t sp x.
Proof.
  intros T M Pg S Nc E H. destruct t as [| | | | | | | | | | | | | | | | |v k| | | | | | | | | | | | | | | | | | | | | | | | | | | | | | | | ]; try discriminate M. apply weight_name.
  pose proof (name_tame o _ S Nc) as Tm. assert (Mk : @mark (kenv_name o false sp v (not_pg o Pg)) (TIdent v k) = true) by (now rewrite name_mark).
  apply (@statement_kept (kenv_name o false sp v (not_pg o Pg)) src issues pre post (TIdent v k) T) with (out := out); auto; try discriminate.
Qed.
(** parse_statements. *)
Theorem C55_statements src issues o pre t sp post x out :
  written_tokens src (pre ++ (t, sp) :: post) -> is_name t = true -> o_dialect o <> PostgreSQL ->
  nothing_skipped o (pre ++ (t, sp) :: post) -> no_constraint (pre ++ (t, sp) :: post) -> no_name_delimiter (pre ++ (t, sp) :: post) ->
  parse_statements src issues o = Returns x out -> errors (new_issues issues out) = [] ->
  named_in t sp x.
Proof.
  intros T M Pg S Nc D E H. destruct t as [| | | | | | | | | | | | | | | | |v k| | | | | | | | | | | | | | | | | | | | | | | | | | | | | | | | ]; try discriminate M. apply weight_name.
  pose proof (name_tame o _ S Nc) as Tm. assert (Mk : @mark (kenv_name o true sp v (not_pg o Pg)) (TIdent v k) = true) by (now rewrite name_mark).
  apply (@statements_kept (kenv_name o true sp v (not_pg o Pg)) src issues pre post (TIdent v k) T) with (out := out); auto.
Qed.

(** ** Examples *)
(** The placeholders of a source, with the tokens before each. *)
Definition toks_in (src : text) : list (tok * span) := match tokens src with Some (inl l) => removelast l | _ => [] end.
Definition args_of {A} {I : Atoms A} (x : outcome A) : option (list (N * span)) :=
  match x with Returns a out => if (length (errors out) =? 0)%nat then Some (args_in a) else None | _ => None end.
Definition with_q : options := mkOptions MariaDB ArgQuestionMark false false false.
Definition demo_k : text := txt "INSERT INTO t (a, b) VALUES (?, CASE WHEN ? THEN f(?, 1) ELSE (SELECT x FROM u WHERE y IN (?, ?) LIMIT ?, 3) END), (2, ?)".
Example C53_applies :
  written_tokens demo_k (toks_in demo_k) /\ length (filter (fun x => is_placeholder (fst x)) (toks_in demo_k)) = 7 /\ nothing_skipped with_q (toks_in demo_k) /\
  args_of (parse_statement_api demo_k [] with_q) =
    Some [(0%N, (29, 30)); (1%N, (42, 43)); (2%N, (51, 52)); (3%N, (91, 92)); (4%N, (94, 95)); (5%N, (103, 104)); (6%N, (119, 120))].
Proof.
  split; [vm_compute; reflexivity|]. split; [vm_compute; reflexivity|]. split; [|vm_compute; reflexivity].
  split; [apply Forall_forall; intros x H; vm_compute in H; intuition (subst; reflexivity)|split; [|left; discriminate]]. apply Forall_forall; intros x H; vm_compute in H; intuition (subst; reflexivity).
Qed.
Definition demo_ks : text := txt "UPDATE t JOIN u ON t.a = $3 SET b = $1 WHERE c = $2; DELETE FROM t USING u, (SELECT $4) AS v;".
Definition with_d : options := mkOptions PostgreSQL ArgDollar false false false.
Example C53_script_applies :
  written_tokens demo_ks (toks_in demo_ks) /\ length (filter (fun x => is_placeholder (fst x)) (toks_in demo_ks)) = 4 /\ nothing_skipped with_d (toks_in demo_ks) /\
  no_placeholder_delimiter (toks_in demo_ks) /\ option_map (map fst) (args_of (parse_statements demo_ks [] with_d)) = Some [2%N; 0%N; 1%N; 3%N].
Proof.
  split; [vm_compute; reflexivity|]. split; [vm_compute; reflexivity|]. split; [|split; [|vm_compute; reflexivity]].
  - split; [|split]; [vm_compute; repeat constructor..|]. right. left. vm_compute. repeat constructor.
  - intros pre x y post E K. assert (X : In x (toks_in demo_ks)) by (rewrite E; apply in_or_app; right; now left).
    assert (N : existsb (fun x => is_kw (fst x) "DELIMITER") (toks_in demo_ks) = false) by (vm_compute; reflexivity).
    exfalso. enough (existsb (fun x => is_kw (fst x) "DELIMITER") (toks_in demo_ks) = true) by congruence. apply existsb_exists. exists x. split; [exact X|exact K].
Qed.
(** The exclusions are needed: placeholders in exception handlers and in the bodies of functions are accepted and lost. *)
(** The exclusions are needed: a placeholder in an exception handler, in the body of a function, as the delimiter or in the data of COPY
    is accepted without an Error and lost (DESIGN.md, Findings). *)
Definition lost {A} {I : Atoms A} (src : text) (x : outcome A) : Prop :=
  existsb (fun x => is_placeholder (fst x)) (toks_in src) = true /\ args_of x = Some [].
Example C53_handler_lost : lost (txt "CREATE TRIGGER g AFTER DELETE ON t FOR EACH ROW BEGIN SELECT 1; EXCEPTION WHEN a THEN ?; END")
  (parse_statement_api (txt "CREATE TRIGGER g AFTER DELETE ON t FOR EACH ROW BEGIN SELECT 1; EXCEPTION WHEN a THEN ?; END") [] with_q).
Proof. vm_compute. split; reflexivity. Qed.
Example C53_body_lost : lost (txt "CREATE FUNCTION f(a int) RETURNS int AS $$ SELECT ? $$")
  (parse_statement_api (txt "CREATE FUNCTION f(a int) RETURNS int AS $$ SELECT ? $$") [] (mkOptions PostgreSQL ArgQuestionMark false false false)).
Proof. vm_compute. split; reflexivity. Qed.
Example C53_delimiter_lost : lost (txt "DELIMITER ? COMMIT ?") (parse_statements (txt "DELIMITER ? COMMIT ?") [] with_q).
Proof. vm_compute. split; reflexivity. Qed.
(** Literals: the tokens, and the leaves. *)
Definition literals_of (o : options) (src : text) : list (tok * span) := filter (fun x => is_literal o (fst x)) (toks_in src).
Definition literal_leaves {A} {I : Atoms A} (x : outcome A) : option (list (leaf * span)) :=
  match x with Returns a out => if (length (errors out) =? 0)%nat then Some (filter (fun l => literal_leaf (fst l)) (leaves_in a)) else None | _ => None end.
Definition demo_l : text := txt "CREATE TABLE t (a varchar(30) COMMENT 'x' 'y', b enum('p', ""q"") DEFAULT 1.5, c int(7)) COMMENT='z'".
Definition all_free (ts : list (tok * span)) (ks : list string) : bool := forallb (fun x => forallb (fun k => negb (is_kw (fst x) k)) ks) ts.
Lemma all_free_spec ts ks k : all_free ts ks = true -> In k ks -> word_free k ts.
Proof.
  unfold all_free, word_free. rewrite forallb_forall, Forall_forall. intros H I x X. specialize (H x X). rewrite forallb_forall in H. specialize (H k I). now apply negb_true_iff.
Qed.
Example C54_applies :
  written_tokens demo_l (toks_in demo_l) /\ nothing_skipped default_options (toks_in demo_l) /\ not_split (toks_in demo_l) /\
  literals_of default_options demo_l =
    [(TInteger (txt "30"), (26, 28)); (TSingleQuotedString (txt "x"), (38, 41)); (TSingleQuotedString (txt "y"), (42, 45)); (TSingleQuotedString (txt "p"), (54, 57));
     (TDoubleQuotedString (txt "q"), (59, 62)); (TFloat (txt "1.5"), (72, 75)); (TInteger (txt "7"), (83, 84)); (TSingleQuotedString (txt "z"), (95, 98))] /\
  literal_leaves (parse_statement_api demo_l [] default_options) =
    Some [(LInt 30, (26, 28)); (LStr (txt "xy"), (38, 45)); (LStr (txt "p"), (54, 57)); (LStr (txt "q"), (59, 62)); (LFloat (txt "1.5"), (72, 75)); (LInt 7, (83, 84)); (LStr (txt "z"), (95, 98))].
Proof.
  assert (Fr : all_free (toks_in demo_l) ["STDIN"; "EXCEPTION"; "FUNCTION"; "INTERVAL"; "NUMERIC"; "BIT"] = true) by (vm_compute; reflexivity).
  assert (X : forall k, In k ["STDIN"; "EXCEPTION"; "FUNCTION"; "INTERVAL"; "NUMERIC"; "BIT"] -> word_free k (toks_in demo_l)) by (intros k; now apply all_free_spec).
  split; [vm_compute; reflexivity|]. split; [split; [|split]|split; [split; [|split]|split]].
  - apply X; cbn [In]; tauto.
  - apply X; cbn [In]; tauto.
  - left. discriminate.
  - apply X; cbn [In]; tauto.
  - apply X; cbn [In]; tauto.
  - apply X; cbn [In]; tauto.
  - vm_compute. reflexivity.
  - vm_compute. reflexivity.
Qed.
Definition demo_ls : text := txt "INSERT INTO t VALUES (1, 'a', -2.5), (3, 'it''s' ""b"", f(4)); SELECT a FROM t WHERE b IN (5, 'c') LIMIT 6, 7; DELIMITER ;;".
Example C54_script_applies :
  written_tokens demo_ls (toks_in demo_ls) /\ nothing_skipped default_options (toks_in demo_ls) /\ not_split (toks_in demo_ls) /\ no_literal_delimiter default_options (toks_in demo_ls) /\
  length (literals_of default_options demo_ls) = 11 /\
  option_map (map fst) (literal_leaves (parse_statements demo_ls [] default_options)) =
    Some [LInt 1; LStr (txt "a"); LFloat (txt "2.5"); LInt 3; LStr (txt "it'sb"); LInt 4; LInt 5; LStr (txt "c"); LInt 6; LInt 7].
Proof.
  assert (Fr : all_free (toks_in demo_ls) ["STDIN"; "EXCEPTION"; "FUNCTION"; "INTERVAL"; "NUMERIC"; "BIT"] = true) by (vm_compute; reflexivity).
  assert (X : forall k, In k ["STDIN"; "EXCEPTION"; "FUNCTION"; "INTERVAL"; "NUMERIC"; "BIT"] -> word_free k (toks_in demo_ls)) by (intros k; now apply all_free_spec).
  split; [vm_compute; reflexivity|]. split; [split; [|split]|split; [split; [|split]|split; [|split]]].
  - apply X; cbn [In]; tauto.
  - apply X; cbn [In]; tauto.
  - left. discriminate.
  - apply X; cbn [In]; tauto.
  - apply X; cbn [In]; tauto.
  - apply X; cbn [In]; tauto.
  - intros pre x y post E K. assert (N : forall l, (fix chk (l : list (tok * span)) : bool := match l with a :: ((b :: _) as l') => (negb (is_kw (fst a) "DELIMITER") || negb (is_literal default_options (fst b))) && chk l' | _ => true end) l = true ->
      forall pre x y post, l = pre ++ x :: y :: post -> is_kw (fst x) "DELIMITER" = true -> is_literal default_options (fst y) = false).
    { clear. induction l as [|a [|b l] IH]; intros H pre x y post E K.
      - destruct pre; discriminate.
      - destruct pre as [|? [|]]; discriminate.
      - apply andb_true_iff in H as [H1 H2]. destruct pre as [|p pre].
        + injection E as -> -> ->. rewrite K in H1. cbn [negb orb] in H1. now apply negb_true_iff.
        + injection E as -> E. eapply IH; eauto. }
    eapply N; [|exact E|exact K]. vm_compute. reflexivity.
  - vm_compute. reflexivity.
  - vm_compute. reflexivity.
Qed.
(** The exclusions are needed: these literals are accepted and are no leaves.  The values of the first three are kept in another form; the
    last is lost. *)
Definition no_leaf {A} {I : Atoms A} (o : options) (src : text) (x : outcome A) : Prop := length (literals_of o src) = 1 /\ literal_leaves x = Some [].
Example C54_interval : no_leaf default_options (txt "SELECT a + INTERVAL '1:2' HOUR_MINUTE") (parse_statement_api (txt "SELECT a + INTERVAL '1:2' HOUR_MINUTE") [] default_options).
Proof. vm_compute. split; reflexivity. Qed.
Example C54_bit : no_leaf default_options (txt "CREATE TABLE t (a bit(8))") (parse_statement_api (txt "CREATE TABLE t (a bit(8))") [] default_options).
Proof. vm_compute. split; reflexivity. Qed.
Example C54_handler_lost : no_leaf default_options (txt "CREATE TRIGGER g AFTER DELETE ON t FOR EACH ROW BEGIN SELECT a; EXCEPTION WHEN b THEN 1; END")
  (parse_statement_api (txt "CREATE TRIGGER g AFTER DELETE ON t FOR EACH ROW BEGIN SELECT a; EXCEPTION WHEN b THEN 1; END") [] default_options).
Proof. vm_compute. split; reflexivity. Qed.
(** Names: the tokens, and where they are in the tree. *)
Definition names_of (src : text) : list (text * span) := flat_map (fun x => match fst x with TIdent v _ => if is_name (fst x) then [(v, snd x)] else [] | _ => [] end) (toks_in src).
Definition names_found {A} {I : Atoms A} (x : outcome A) : option (list (text * span)) :=
  match x with
  | Returns a out => if (length (errors out) =? 0)%nat
      then Some (idents_in a ++ flat_map (fun l => match l with (LFunc (FOther v), s) | (LVar (VOther v), s) => [(v, s)] | _ => [] end) (leaves_in a)) else None
  | _ => None end.
Definition sub_names (a b : list (text * span)) : bool := forallb (fun x => existsb (fun y => text_eqb (fst x) (fst y) && span_eqb (snd x) (snd y)) b) a.
Definition demo_n : text := txt "SELECT u.a, foo(b), COUNT(d) AS `x-y`, @@GLOBAL.zz FROM s.t AS u JOIN v USING w WHERE bar() = c GROUP BY e ORDER BY g".
Example C55_applies :
  written_tokens demo_n (toks_in demo_n) /\ nothing_skipped default_options (toks_in demo_n) /\ no_constraint (toks_in demo_n) /\
  map fst (names_of demo_n) = map txt ["u"; "a"; "foo"; "b"; "d"; "x-y"; "zz"; "s"; "t"; "u"; "v"; "w"; "bar"; "c"; "e"; "g"] /\
  option_map (fun l => (length l, sub_names (names_of demo_n) l)) (names_found (parse_statement_api demo_n [] default_options)) = Some (16, true).
Proof.
  assert (Fr : all_free (toks_in demo_n) ["STDIN"; "EXCEPTION"; "FUNCTION"; "CONSTRAINT"] = true) by (vm_compute; reflexivity).
  assert (X : forall k, In k ["STDIN"; "EXCEPTION"; "FUNCTION"; "CONSTRAINT"] -> word_free k (toks_in demo_n)) by (intros k; now apply all_free_spec).
  split; [vm_compute; reflexivity|]. split; [split; [|split]|split; [|split]].
  - apply X; cbn [In]; tauto.
  - apply X; cbn [In]; tauto.
  - left. discriminate.
  - apply X; cbn [In]; tauto.
  - vm_compute. reflexivity.
  - vm_compute. reflexivity.
Qed.
Definition demo_ns : text := txt "CREATE TRIGGER g BEFORE UPDATE ON tt FOR EACH ROW BEGIN IF xx THEN UPDATE yy SET zz = ww; END IF; END; DROP TABLE `p-q`.r; DELIMITER $$".
Example C55_script_applies :
  written_tokens demo_ns (toks_in demo_ns) /\ nothing_skipped default_options (toks_in demo_ns) /\ no_constraint (toks_in demo_ns) /\ no_name_delimiter (toks_in demo_ns) /\
  map fst (names_of demo_ns) = map txt ["g"; "tt"; "xx"; "yy"; "zz"; "ww"; "p-q"; "r"] /\
  option_map (fun l => (length l, sub_names (names_of demo_ns) l)) (names_found (parse_statements demo_ns [] default_options)) = Some (8, true).
Proof.
  assert (Fr : all_free (toks_in demo_ns) ["STDIN"; "EXCEPTION"; "FUNCTION"; "CONSTRAINT"] = true) by (vm_compute; reflexivity).
  assert (X : forall k, In k ["STDIN"; "EXCEPTION"; "FUNCTION"; "CONSTRAINT"] -> word_free k (toks_in demo_ns)) by (intros k; now apply all_free_spec).
  split; [vm_compute; reflexivity|]. split; [split; [|split]|split; [|split; [|split]]].
  - apply X; cbn [In]; tauto.
  - apply X; cbn [In]; tauto.
  - left. discriminate.
  - apply X; cbn [In]; tauto.
  - intros pre x y post E K. assert (N : forall l, (fix chk (l : list (tok * span)) : bool := match l with a :: ((b :: _) as l') => (negb (is_kw (fst a) "DELIMITER") || negb (is_name (fst b))) && chk l' | _ => true end) l = true ->
      forall pre x y post, l = pre ++ x :: y :: post -> is_kw (fst x) "DELIMITER" = true -> is_name (fst y) = false).
    { clear. induction l as [|a [|b l] IH]; intros H pre x y post E K.
      - destruct pre; discriminate.
      - destruct pre as [|? [|]]; discriminate.
      - apply andb_true_iff in H as [H1 H2]. destruct pre as [|p pre].
        + injection E as -> -> ->. rewrite K in H1. cbn [negb orb] in H1. now apply negb_true_iff.
        + injection E as -> E. eapply IH; eauto. }
    eapply N; [|exact E|exact K]. vm_compute. reflexivity.
  - vm_compute. reflexivity.
  - vm_compute. reflexivity.
Qed.
(** The exclusions are needed: in each of these a name is accepted and lost; of a type with a name (PostgreSQL) only the place is kept. *)
Definition name_lost {A} {I : Atoms A} (src : text) (x : outcome A) (lost : list string) : Prop :=
  match names_found x with
  | Some l => map fst (filter (fun n => negb (sub_names [n] l)) (names_of src)) = map txt lost
  | None => False end.
Definition fk_src : text := txt "CREATE TABLE t1 (a int, CONSTRAINT k1 FOREIGN KEY (c1) REFERENCES t2 (c2))".
Example C55_foreign_key_lost : name_lost fk_src (parse_statement_api fk_src [] default_options) ["c1"; "t2"; "c2"].
Proof. vm_compute. reflexivity. Qed.
Definition add_src : text := txt "ALTER TABLE t1 ADD CONSTRAINT k1 COLUMN c1 int".
Example C55_add_column_lost : name_lost add_src (parse_statement_api add_src [] default_options) ["k1"].
Proof. vm_compute. reflexivity. Qed.
Definition type_src : text := txt "CREATE TABLE t1 (c1 mytype)".
Example C55_named_type_lost : name_lost type_src (parse_statement_api type_src [] (mkOptions PostgreSQL ArgNone false false false)) ["mytype"].
Proof. vm_compute. reflexivity. Qed.
Definition handler_src : text := txt "CREATE TRIGGER g AFTER DELETE ON t FOR EACH ROW BEGIN SELECT a; EXCEPTION WHEN others1 THEN b; END".
Example C55_handler_lost : name_lost handler_src (parse_statement_api handler_src [] default_options) ["others1"; "b"].
Proof. vm_compute. reflexivity. Qed.
