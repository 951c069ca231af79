(** C56: a judgement on two runs in lock-step.

    The two parsers are in front of the same tokens, at other positions: a start [p] in one source is [lg p] in
    the other, an end [p] is [lh p], and both maps are monotone.  With [lcase] the reserved words may be spelled in
    another case in the other source. *)
From Verif Require Export Respan Accept RunFacts.
From Coq Require Import Lia.
Local Open Scope string_scope.
Local Open Scope list_scope.

Class lenv := mkLenv { lg : nat -> nat; lh : nat -> nat;
  lg_mono : forall a b, a <= b -> lg a <= lg b;
  lh_mono : forall a b, a <= b -> lh a <= lh b;
  lstrict : bool;
  l_zero : lstrict = true -> lg 0 = 0 /\ lh 0 = 0;
  lcase : bool;
  l_case : lcase = true -> lstrict = false }.

Section Logic.
Context {L : lenv}.
Definition lf (s : span) : span := (lg (fst s), lh (snd s)).
Lemma lf_join a b : join (lf a) (lf b) = lf (join a b).
Proof.
  unfold lf, join. cbn [fst snd]. f_equal.
  - destruct (Nat.le_ge_cases (fst a) (fst b)) as [H|H]; pose proof (lg_mono _ _ H); rewrite ?Nat.min_l, ?Nat.min_r by assumption; reflexivity.
  - destruct (Nat.le_ge_cases (snd a) (snd b)) as [H|H]; pose proof (lh_mono _ _ H); rewrite ?Nat.max_l, ?Nat.max_r by assumption; reflexivity.
Qed.
Definition at_ (x : tok * span) : tok * span := (fst x, lf (snd x)).
(** No word STDIN; and, where the case of words may change, no [@@GLOBAL] and [@@SESSION], and no word DELIMITER. *)
Definition plain (t : tok) : Prop := is_kw t "STDIN" = false /\ (lcase = true -> tok_eqb t TAtAtGlobal || tok_eqb t TAtAtSession || is_kw t "DELIMITER" = false).
(** The same token; a reserved word may be spelled in another way. *)
Definition respelled (t t' : tok) : Prop :=
  match t with
  | TIdent v k => exists v', t' = TIdent v' k /\ (v' = v \/ (lcase = true /\ kw_reserved k = true))
  | _ => t' = t
  end.
Definition trel (t t' : tok) : Prop := plain t /\ respelled t t'.
Definition xrel (x x' : tok * span) : Prop := trel (fst x) (fst x') /\ snd x' = lf (snd x).
Definition notid (t : tok) : bool := match t with TIdent _ _ => false | _ => true end.
Definition okd (t : tok) : Prop := lcase = true -> notid t = true.
Lemma rel_same t : plain t -> trel t t.
Proof. split; [assumption|]. destruct t; cbn; eauto. Qed.
Lemma rel_kw t t' : trel t t' -> forall s, is_kw t' s = is_kw t s.
Proof. intros [_ H] s. destruct t; cbn in H; try (now subst t'). destruct H as (v' & -> & _). reflexivity. Qed.
Lemma rel_eqb t t' : trel t t' -> forall c, okd c -> tok_eqb t' c = tok_eqb t c.
Proof.
  intros [_ H] c N. destruct t; cbn in H; try (now subst t'). destruct H as (v' & -> & [-> |[C _]]); [reflexivity|]. specialize (N C). now destruct c.
Qed.
Lemma rel_off t t' : trel t t' -> lcase = false -> t' = t.
Proof. intros [_ H] C. destruct t; try exact H. destruct H as (v' & -> & [-> |[H _]]); congruence. Qed.
Lemma rel_assoc t t' : trel t t' -> forall A (tbl : list (string * A)), kw_assoc tbl t' = kw_assoc tbl t.
Proof. intros H A tbl. induction tbl as [|[k v] tbl IH]; cbn [kw_assoc]; [reflexivity|]. now rewrite (rel_kw _ _ H), IH. Qed.
Lemma rel_notid t t' : trel t t' -> notid t = true -> t' = t.
Proof. intros [_ H] N. destruct t; try exact H. discriminate. Qed.
Lemma rel_unres t t' : trel t t' -> is_unreserved t' = is_unreserved t.
Proof. intros [_ H]. destruct t; cbn in H; try (now subst t'). destruct H as (v' & -> & _). reflexivity. Qed.
Lemma rel_string t t' : trel t t' -> string_token t' = string_token t.
Proof. intros [_ H]. destruct t; cbn in H; try (now subst t'). destruct H as (v' & -> & _). reflexivity. Qed.
Lemma rel_creatable t t' : trel t t' -> is_creatable t' = is_creatable t.
Proof. intros H. unfold is_creatable. now rewrite !(rel_kw _ _ H). Qed.
Lemma rel_time_unit t t' : trel t t' -> parse_time_unit t' = parse_time_unit t.
Proof. intros H. unfold parse_time_unit. now rewrite (rel_assoc _ _ H). Qed.
Lemma rel_known t t' : trel t t' -> known_delimiter t' = known_delimiter t.
Proof. intros H. unfold known_delimiter. now rewrite !(rel_eqb _ _ H) by (intros _; reflexivity). Qed.
Definition respects (e : tok -> bool) : Prop := forall t t', trel t t' -> e t' = e t.
(** The same issue at the other position; the text it shows is that of the other source. *)
Definition same_fragment (a b : fragment) : Prop := f_message b = f_message a /\ f_span b = lf (f_span a).
Definition same_issue (a b : issue) : Prop :=
  i_level b = i_level a /\ i_message b = i_message a /\ i_span b = lf (i_span a) /\ Forall2 same_fragment (i_fragments a) (i_fragments b).
Definition lr (l l' : lex) : Prop := forall n, exists ts ts', length ts = n /\ lexes l ts /\ lexes l' ts' /\ Forall2 xrel ts ts'.
Record sr (st st' : pst) : Prop := mkSr {
  sr_tok : trel (s_tok st) (s_tok st'); sr_span : s_span st' = lf (s_span st);
  sr_peek : match s_peek st, s_peek st' with Some x, Some x' => xrel x x' | None, None => True | _, _ => False end;
  sr_lex : lr (s_lex st) (s_lex st');
  sr_in : okd (s_delim st) /\ (lcase = true -> o_warn_caps (s_opts st) = false);
  sr_issues : Forall2 same_issue (s_issues st) (s_issues st');
  sr_arg : s_arg st' = s_arg st; sr_delim : s_delim st' = s_delim st; sr_opts : s_opts st' = s_opts st; sr_permit : s_permit st' = s_permit st }.
Lemma sr_ne st st' : sr st st' -> ne st' = ne st.
Proof.
  intros [_ _ _ _ _ H _ _ _ _]. unfold ne. induction H as [|a b l l' (H1 & _) H2 IH]; [reflexivity|]. cbn [filter]. assert (err_issue b = err_issue a) as -> by (unfold err_issue; now rewrite H1).
  destruct (err_issue a); cbn [length]; auto.
Qed.
Lemma lr_next l l' : lr l l' -> exists t t' s l1 l1', next_token l = LOk (t, s) l1 /\ next_token l' = LOk (t', lf s) l1' /\ lr l1 l1' /\ trel t t'.
Proof.
  intros H. destruct (H 1) as ([|[t s] [|]] & ts' & Hn & H1 & H2 & H3); try discriminate. inversion H3 as [|? [t' s'] ? ? [Hx Hs] H4]; subst. inversion H4; subst. cbn [fst snd] in *. subst s'.
  destruct H1 as (l1 & E1 & _), H2 as (l1' & E2 & _).
  exists t, t', s, l1, l1'. repeat (split; [assumption|]). split; [|assumption]. intros n. destruct (H (S n)) as ([|x ts] & ts' & Hm & K1 & K2 & K3); [discriminate|].
  inversion K3; subst. destruct K1 as (m1 & F1 & K1), K2 as (m2 & F2 & K2). rewrite E1 in F1. rewrite E2 in F2. injection F1 as <- <-. injection F2 as <- <-.
  exists ts, l'0. split; [now injection Hm|]. split; [exact K1|]. split; [exact K2|assumption].
Qed.
(** *** The effects *)
Definition bad {X} (r : xres X) : Prop := match r with XFuel | XPanic PBadSlice => True | _ => False end.
Definition xagree {X} (R : X -> X -> Prop) (r r' : xres X) : Prop :=
  match r, r' with
  | XOk x st, XOk x' st' => sr st st' /\ R x x'
  | XPanic w, XPanic w' => w = w'
  | _, _ => False
  end \/ bad r \/ bad r'.
Lemma p_next_l st st' : sr st st' -> exists st1 st1', p_next st = XOk tt st1 /\ p_next st' = XOk tt st1' /\ sr st1 st1' /\ ne st1 = ne st.
Proof.
  intros [H1 H2 H3 H4 H5 H6 H7 H8 H9 H10]. unfold p_next. destruct (s_peek st) as [[t s]|], (s_peek st') as [[t' s']|]; try contradiction.
  - destruct H3 as [H3 Hs]. cbn [fst snd] in *. do 2 eexists. split; [reflexivity|]. split; [reflexivity|]. split; [|reflexivity]. split; cbn; auto.
  - destruct (lr_next _ _ H4) as (t & t' & s & l1 & l1' & E1 & E2 & E3 & E4). rewrite E1, E2.
    do 2 eexists. split; [reflexivity|]. split; [reflexivity|]. split; [|reflexivity]. split; cbn; auto.
Qed.
Lemma p_peek_l st st' : sr st st' -> xagree trel (p_peek st) (p_peek st').
Proof.
  intros H. pose proof H as [H1 H2 H3 H4 H5 H6 H7 H8 H9 H10]. unfold p_peek. destruct (s_peek st) as [[t s]|] eqn:Ep, (s_peek st') as [[t' s']|] eqn:Ep'; try contradiction.
  - left. split; [|apply H3]. exact H.
  - destruct (lr_next _ _ H4) as (t & t' & s & l1 & l1' & E1 & E2 & E3 & E4). rewrite E1, E2. left. split; [|exact E4]. split; cbn; auto. split; auto.
Qed.
Definition frag_at (x : text * span) : text * span := (fst x, lf (snd x)).
Lemma build_frags_l src src' fr l l' : build_frags src fr = Some l -> build_frags src' (map frag_at fr) = Some l' -> Forall2 same_fragment l l'.
Proof.
  revert l l'. induction fr as [|[m s] fr IH]; intros l l' H H'; cbn in H, H'.
  - injection H as <-. injection H' as <-. constructor.
  - destruct (slice src _ _), (slice src' _ _); try discriminate; try (destruct (build_frags src fr); discriminate). destruct (build_frags src fr), (build_frags src' _); try discriminate.
    injection H as <-. injection H' as <-. constructor; [split; reflexivity|]. now apply IH.
Qed.
Lemma p_issue_l l m s fr st st' : sr st st' -> xagree eq (p_issue l m s fr st) (p_issue l m (lf s) (map frag_at fr) st').
Proof.
  intros H. unfold p_issue. destruct (slice (s_isrc st) _ _) as [seg|]; [|right; left; exact I]. destruct (build_frags (s_isrc st) fr) as [frs|] eqn:E1; [|right; left; exact I].
  destruct (slice (s_isrc st') _ _) as [seg'|]; [|right; right; exact I]. destruct (build_frags (s_isrc st') _) as [frs'|] eqn:E2; [|right; right; exact I].
  left. split; [|reflexivity]. destruct H as [H1 H2 H3 H4 H5 H6 H7 H8 H9 H10]. split; cbn [set_issues s_tok s_span s_peek s_lex s_issues s_arg s_delim s_opts s_permit]; auto.
  apply Forall2_app; [exact H6|]. constructor; [|constructor]. split; [reflexivity|]. split; [reflexivity|]. split; [reflexivity|]. eapply build_frags_l; eauto.
Qed.
Lemma recover_f_l n : forall n' e b st st', respects e -> sr st st' -> xagree eq (recover_f n e b st) (recover_f n' e b st').
Proof.
  induction n as [|n IH]; intros n' e b st st' He H; [right; left; exact I|]. destruct n' as [|n']; [right; right; exact I|]. cbn [recover_f].
  pose proof (sr_tok _ _ H) as Ht. rewrite (He _ _ Ht), (rel_eqb _ _ Ht TEof (fun _ => eq_refl)), (sr_delim _ _ H), (rel_eqb _ _ Ht (s_delim st) (proj1 (sr_in _ _ H))).
  destruct (p_next_l _ _ H) as (st1 & st1' & E1 & E2 & H1 & _). rewrite E1, E2.
  destruct (_ && _); [left; split; [exact H|reflexivity]|]. destruct (tok_eqb _ TEof); [left; split; [exact H|reflexivity]|].
  destruct (tok_eqb _ (s_delim st)); [left; split; [exact H|reflexivity]|]. destruct Ht as [_ Ht].
  destruct (s_tok st); cbn in Ht; try (rewrite Ht; now apply IH). destruct Ht as (v' & -> & _). now apply IH.
Qed.
(** *** Programs *)
Definition stuck {A} (r : res A) : Prop := match r with RFuel | RPanic PBadSlice => True | _ => False end.
Definition noted {A} (n : nat) (r : res A) : Prop := match r with ROk _ st | RErr st => n < ne st | _ => True end.
Definition core {A} (R : A -> A -> Prop) (r r' : res A) : Prop :=
  match r, r' with
  | ROk a st, ROk a' st' => sr st st' /\ R a a'
  | RErr st, RErr st' => sr st st'
  | RPanic w, RPanic w' => w = w'
  | _, _ => False
  end.
Definition agree {A} (R : A -> A -> Prop) (n : nat) (r r' : res A) : Prop :=
  core R r r' \/ stuck r \/ stuck r' \/ (lstrict = false /\ noted n r /\ noted n r').
Definition pr {A} (R : A -> A -> Prop) (p p' : prog A) : Prop := forall st st', sr st st' -> agree R (ne st) (run p st) (run p' st').
Lemma pr_conseq A (R R' : A -> A -> Prop) p p' : pr R p p' -> (forall a a', R a a' -> R' a a') -> pr R' p p'.
Proof.
  intros H I st st' S. destruct (H st st' S) as [C|C]; [left|right; exact C]. destruct (run p st), (run p' st'); cbn in C |- *; auto. destruct C; auto.
Qed.
Lemma pr_ret A (R : A -> A -> Prop) a a' : R a a' -> pr R (Ret a) (Ret a').
Proof. intros H st st' S. left. split; auto. Qed.
Lemma pr_fail A (R : A -> A -> Prop) : pr R Fail Fail.
Proof. intros st st' S. left. exact S. Qed.
Lemma pr_panic A (R : A -> A -> Prop) w : pr R (Panic w) (Panic w).
Proof. intros st st' S. left. reflexivity. Qed.
Lemma pr_fuel A (R : A -> A -> Prop) p : pr R OutOfFuel p.
Proof. intros st st' S. right. left. exact I. Qed.
Lemma pr_fuel' A (R : A -> A -> Prop) p : pr R p OutOfFuel.
Proof. intros st st' S. right. right. left. exact I. Qed.
Lemma noted_le A n m (r : res A) : n <= m -> noted m r -> noted n r.
Proof. destruct r; cbn; intros; lia || auto. Qed.
Lemma noted_run A n (p : prog A) st : n < ne st -> noted n (run p st).
Proof. intros H. destruct (run p st) eqn:E; cbn; auto; [pose proof (grown_ok _ _ _ _ _ E)|pose proof (grown_err _ _ _ _ E)]; lia. Qed.
Lemma noted_bind A B n (p : prog A) (k : A -> prog B) st : noted n (run p st) -> noted n (run (bind p k) st).
Proof. rewrite run_bind. destruct (run p st); cbn; auto. apply noted_run. Qed.
Lemma noted_try A B n (p : prog A) (k : option A -> prog B) st : noted n (run p st) -> noted n (run (Try p k) st).
Proof. cbn [run]. destruct (run p st); cbn; auto; apply noted_run. Qed.
Lemma stuck_bind A B (p : prog A) (k : A -> prog B) st : stuck (run p st) -> stuck (run (bind p k) st).
Proof. rewrite run_bind. now destruct (run p st). Qed.
Lemma stuck_try A B (p : prog A) (k : option A -> prog B) st : stuck (run p st) -> stuck (run (Try p k) st).
Proof. cbn [run]. now destruct (run p st). Qed.
Lemma agree_le A R n m (r r' : res A) : n <= m -> agree R m r r' -> agree R n r r'.
Proof. intros H [C|[C|[C|(C1 & C2 & C3)]]]; [left|right; left|right; right; left|right; right; right]; auto. split; [auto|]. split; eapply noted_le; eauto. Qed.
Lemma pr_bind A B (R : A -> A -> Prop) (S : B -> B -> Prop) p p' k k' : pr R p p' -> (forall a a', R a a' -> pr S (k a) (k' a')) -> pr S (bind p k) (bind p' k').
Proof.
  intros H1 H2 st st' Hs. destruct (H1 st st' Hs) as [C|[C|[C|(C0 & C1 & C2)]]].
  2:{ right. left. now apply stuck_bind. }
  2:{ right. right. left. now apply stuck_bind. }
  2:{ right. right. right. split; [exact C0|]. split; now apply noted_bind. }
  rewrite !run_bind. destruct (run p st) as [a st1|st1|w|] eqn:E1, (run p' st') as [a' st1'|st1'|w'|] eqn:E2; cbn [core] in C; try contradiction.
  - destruct C as [C1 C2]. eapply agree_le; [exact (grown_ok _ _ _ _ _ E1)|]. apply H2; assumption.
  - left. exact C.
  - left. exact C.
Qed.
Lemma pr_try A B (R : A -> A -> Prop) (S : B -> B -> Prop) p p' k k' : pr R p p' -> (forall a a', R a a' -> pr S (k (Some a)) (k' (Some a'))) ->
  pr S (k None) (k' None) -> pr S (Try p k) (Try p' k').
Proof.
  intros H1 H2 H3 st st' Hs. destruct (H1 st st' Hs) as [C|[C|[C|(C0 & C1 & C2)]]].
  2:{ right. left. now apply stuck_try. }
  2:{ right. right. left. now apply stuck_try. }
  2:{ right. right. right. split; [exact C0|]. split; now apply noted_try. }
  cbn [run]. destruct (run p st) as [a st1|st1|w|] eqn:E1, (run p' st') as [a' st1'|st1'|w'|] eqn:E2; cbn [core] in C; try contradiction.
  - destruct C as [C1 C2]. eapply agree_le; [exact (grown_ok _ _ _ _ _ E1)|]. apply H2; assumption.
  - eapply agree_le; [exact (grown_err _ _ _ _ E1)|]. apply H3; assumption.
  - left. exact C.
Qed.
(** A failure has been reported. *)
Definition errs {A} (p : prog A) : Prop := forall st st', run p st = RErr st' -> ne st < ne st'.
(** What a failure leads to only matters if errors are compared too. *)
Lemma pr_try_errs A B (R : A -> A -> Prop) (S : B -> B -> Prop) p p' k k' : pr R p p' -> errs p -> errs p' -> (forall a a', R a a' -> pr S (k (Some a)) (k' (Some a'))) ->
  (lstrict = true -> pr S (k None) (k' None)) -> pr S (Try p k) (Try p' k').
Proof.
  intros H1 F1 F2 H2 H3. destruct lstrict eqn:Sx; [eapply pr_try; eauto|]. intros st st' Hs. destruct (H1 st st' Hs) as [C|[C|[C|(C0 & C1 & C2)]]].
  2:{ right. left. now apply stuck_try. }
  2:{ right. right. left. now apply stuck_try. }
  2:{ right. right. right. split; [exact C0|]. split; now apply noted_try. }
  cbn [run]. destruct (run p st) as [a st1|st1|w|] eqn:E1, (run p' st') as [a' st1'|st1'|w'|] eqn:E2; cbn [core] in C; try contradiction.
  - destruct C as [C1 C2]. eapply agree_le; [exact (grown_ok _ _ _ _ _ E1)|]. apply H2; assumption.
  - right. right. right. split; [exact Sx|]. apply F1 in E1. apply F2 in E2. rewrite (sr_ne _ _ Hs) in E2. split; now apply noted_run.
  - left. exact C.
Qed.
Lemma pr_assoc A B C (R : C -> C -> Prop) (p p' : prog A) (f f' : A -> prog B) (g g' : B -> prog C) :
  pr R (bind p (fun x => bind (f x) g)) (bind p' (fun x => bind (f' x) g')) -> pr R (bind (bind p f) g) (bind (bind p' f') g').
Proof.
  intros H st st' Hs. specialize (H st st' Hs). rewrite !run_bind in H |- *. rewrite !run_bind. destruct (run p st), (run p' st'); rewrite ?run_bind in H; exact H.
Qed.
Lemma pr_op X B (RX : X -> X -> Prop) (R : B -> B -> Prop) (c c' : op X) k k' : (forall st st', sr st st' -> xagree RX (exec c st) (exec c' st')) ->
  (forall x x', RX x x' -> pr R (k x) (k' x')) -> pr R (bind (perf c) k) (bind (perf c') k').
Proof.
  intros H1 H2 st st' Hs. rewrite !run_bind, !run_perf. pose proof (H1 _ _ Hs) as C. destruct (exec c st) as [x st1|w|] eqn:E1, (exec c' st') as [x' st1'|w'|] eqn:E2.
  all: destruct C as [C|[C|C]]; cbn in C; try contradiction; try (right; left; exact C); try (right; right; left; exact C); try (left; exact C).
  destruct C as [C1 C2]. eapply agree_le; [exact (ne_grown _ _ (exec_grown _ _ _ _ _ E1))|]. apply H2; assumption.
Qed.
Lemma pr_token B (R : B -> B -> Prop) k k' : (forall t t', trel t t' -> pr R (k t) (k' t')) -> pr R (bind token k) (bind token k').
Proof. intros H. apply (pr_op _ _ trel); [|auto]. intros st st' Hs. left. split; [exact Hs|apply Hs]. Qed.
Lemma pr_span B (R : B -> B -> Prop) k k' : (forall s, pr R (k s) (k' (lf s))) -> pr R (bind cur_span k) (bind cur_span k').
Proof. intros H. apply (pr_op _ _ (fun s s' => s' = lf s)); [|intros ? ? ->; auto]. intros st st' Hs. left. split; [exact Hs|apply Hs]. Qed.
Lemma pr_next B (R : B -> B -> Prop) k k' : pr R (k tt) (k' tt) -> pr R (bind next k) (bind next k').
Proof.
  intros H. apply (pr_op _ _ eq); [|intros [] [] _; auto]. intros st st' Hs. cbn [exec]. destruct (p_next_l _ _ Hs) as (st1 & st1' & -> & -> & H1 & _). left. auto.
Qed.
Lemma pr_peek B (R : B -> B -> Prop) k k' : (forall t t', trel t t' -> pr R (k t) (k' t')) -> pr R (bind peek k) (bind peek k').
Proof. intros H. apply (pr_op _ _ trel); [|auto]. intros st st' Hs. now apply p_peek_l. Qed.
Lemma pr_issue B (R : B -> B -> Prop) l m s s' fr fr' k k' : s' = lf s -> fr' = map frag_at fr -> pr R (k tt) (k' tt) ->
  pr R (bind (perf (OIssue l m s fr)) k) (bind (perf (OIssue l m s' fr')) k').
Proof. intros -> -> H. apply (pr_op _ _ eq); [|intros [] [] _; auto]. intros st st' Hs. now apply p_issue_l. Qed.
Lemma pr_lint_ident B (R : B -> B -> Prop) l v s s' k k' : s' = lf s -> pr R (k tt) (k' tt) -> pr R (bind (perf (OLintIdent l v s)) k) (bind (perf (OLintIdent l v s')) k').
Proof.
  intros -> H. apply (pr_op _ _ eq); [|intros [] [] _; auto]. intros st st' Hs. cbn [exec]. rewrite (sr_opts _ _ Hs).
  destruct (o_warn_unquoted _); [now apply (p_issue_l _ _ _ [])|left; auto].
Qed.
Lemma pr_lint_caps B (R : B -> B -> Prop) v s s' k k' : s' = lf s -> pr R (k tt) (k' tt) -> pr R (bind (perf (OLintCaps v s)) k) (bind (perf (OLintCaps v s')) k').
Proof.
  intros -> H. apply (pr_op _ _ eq); [|intros [] [] _; auto]. intros st st' Hs. cbn [exec]. rewrite (sr_opts _ _ Hs).
  destruct (_ && _); [now apply (p_issue_l _ _ _ [])|left; auto].
Qed.
Lemma pr_lint_caps_case B (R : B -> B -> Prop) v v' s s' k k' : lcase = true -> pr R (k tt) (k' tt) -> pr R (bind (perf (OLintCaps v s)) k) (bind (perf (OLintCaps v' s')) k').
Proof.
  intros C H. apply (pr_op _ _ eq); [|intros [] [] _; auto]. intros st st' Hs. cbn [exec]. rewrite (sr_opts _ _ Hs), (proj2 (sr_in _ _ Hs) C), !Bool.andb_false_r. left. split; [exact Hs|reflexivity].
Qed.
(** Two errors with other messages. *)
Lemma ne_error m s fr st st' : p_issue Error m s fr st = XOk tt st' -> ne st' = S (ne st).
Proof.
  unfold p_issue. destruct (slice _ _ _); [|discriminate]. destruct (build_frags _ _); [|discriminate]. injection 1 as <-. unfold ne. cbn [set_issues s_issues]. rewrite filter_app, app_length. cbn. lia.
Qed.
Lemma p_issue_bad l m s fr st w : p_issue l m s fr st = XPanic w -> w = PBadSlice.
Proof. unfold p_issue. destruct (slice _ _ _); [destruct (build_frags _ _); [discriminate|]|]; congruence. Qed.
Lemma pr_err_case B (R : B -> B -> Prop) m m' s s' fr fr' k k' : lcase = true -> pr R (bind (err_frags m s fr) k) (bind (err_frags m' s' fr') k').
Proof.
  intros C st st' Hs. apply l_case in C. rewrite !run_bind. unfold err_frags. rewrite !run_perf. cbn [exec].
  destruct (p_issue Error m s fr st) as [[] st1|w|] eqn:E1.
  2:{ right. left. now apply p_issue_bad in E1 as ->. }
  2:{ right. left. exact I. }
  destruct (p_issue Error m' s' fr' st') as [[] st1'|w|] eqn:E2.
  2:{ right. right. left. now apply p_issue_bad in E2 as ->. }
  2:{ right. right. left. exact I. }
  right. right. right. apply ne_error in E1. apply ne_error in E2. rewrite (sr_ne _ _ Hs) in E2. split; [exact C|]. split; apply noted_run; lia.
Qed.
Ltac shared := intros H; apply (pr_op _ _ eq); [|intros ? ? <-; auto]; intros st st' Hs; cbn [exec]; destruct Hs as [H1 H2 H3 H4 H5 H6 H7 H8 H9 H10]; left; split; [split; cbn; auto; congruence|congruence].
Lemma pr_arg B (R : B -> B -> Prop) k k' : (forall n, pr R (k n) (k' n)) -> pr R (bind (perf OArg) k) (bind (perf OArg) k').
Proof. shared. Qed.
Lemma pr_delim B (R : B -> B -> Prop) k k' : (forall n, okd n -> pr R (k n) (k' n)) -> pr R (bind (perf ODelim) k) (bind (perf ODelim) k').
Proof. intros H. apply (pr_op _ _ (fun d d' => d' = d /\ okd d)); [|intros ? ? [-> ?]; auto]. intros st st' Hs. left. split; [exact Hs|]. split; [apply Hs|apply (sr_in _ _ Hs)]. Qed.
Lemma pr_setdelim B (R : B -> B -> Prop) t k k' : okd t -> (forall x, pr R (k x) (k' x)) -> pr R (bind (perf (OSetDelim t)) k) (bind (perf (OSetDelim t)) k').
Proof.
  intros N H. apply (pr_op _ _ eq); [|intros ? ? <-; auto]; intros st st' Hs; cbn [exec]; destruct Hs as [H1 H2 H3 H4 H5 H6 H7 H8 H9 H10]. left; split; [split; cbn; auto; split; [exact N|apply H5]|congruence].
Qed.
Lemma pr_permit B (R : B -> B -> Prop) k k' : (forall n, pr R (k n) (k' n)) -> pr R (bind (perf OPermit) k) (bind (perf OPermit) k').
Proof. shared. Qed.
Lemma pr_setpermit B (R : B -> B -> Prop) t k k' : (forall x, pr R (k x) (k' x)) -> pr R (bind (perf (OSetPermit t)) k) (bind (perf (OSetPermit t)) k').
Proof. shared. Qed.
Lemma pr_dialect B (R : B -> B -> Prop) k k' : (forall n, pr R (k n) (k' n)) -> pr R (bind dialect_ k) (bind dialect_ k').
Proof. shared. Qed.
Lemma pr_arguments B (R : B -> B -> Prop) k k' : (forall n, pr R (k n) (k' n)) -> pr R (bind (perf OArguments) k) (bind (perf OArguments) k').
Proof. shared. Qed.
Lemma pr_listhack B (R : B -> B -> Prop) k k' : (forall n, pr R (k n) (k' n)) -> pr R (bind (perf OListHack) k) (bind (perf OListHack) k').
Proof. shared. Qed.
Lemma pr_recover B (R : B -> B -> Prop) e k k' : respects e -> (forall b, pr R (k b) (k' b)) -> pr R (bind (perf (ORecover e)) k) (bind (perf (ORecover e)) k').
Proof. intros He H. apply (pr_op _ _ eq); [|intros ? ? <-; auto]. intros st st' Hs. now apply recover_f_l. Qed.

(** *** Equal results, at the other positions *)
Definition rm {A} {I : Respan A} (a a' : A) : Prop := a' = respan lf a.
Lemma pr_loop S A {I : Respan S} {J : Respan A} n (b b' : S -> prog (S + A)) : (forall s, pr rm (b s) (b' (respan lf s))) -> forall s, pr rm (loop n b s) (loop n b' (respan lf s)).
Proof.
  intros H. induction n as [|n IH]; intros s; cbn [loop]; [apply pr_fuel|]. eapply pr_bind; [apply H|]. intros [a|a] a' ->; cbn [respan Rs_sum]; [apply IH|now apply pr_ret].
Qed.
Lemma pr_loop_acc S {I : Respan S} n (b b' : S -> prog (S * ctl)) : (forall s, pr rm (b s) (b' (respan lf s))) -> forall s, pr rm (loop_acc n b s) (loop_acc n b' (respan lf s)).
Proof.
  intros H. induction n as [|n IH]; intros s; cbn [loop_acc]; [apply pr_fuel|]. eapply pr_try; [apply H| |now apply pr_ret].
  intros [a []] a' ->; [apply IH|now apply pr_ret|now apply pr_ret].
Qed.
Lemma pr_recover_ B (R : B -> B -> Prop) e k k' : respects e -> pr R (k tt) (k' tt) -> pr R (bind (recover e) k) (bind (recover e) k').
Proof. intros He H. unfold recover. apply pr_assoc, pr_recover; [exact He|]. intros [|]; [exact H|apply pr_fail]. Qed.
Lemma pr_expected_error B (R : B -> B -> Prop) m k k' : pr R (k tt) (k' tt) -> pr R (bind (expected_error m) k) (bind (expected_error m) k').
Proof. intros H. unfold expected_error. apply pr_assoc, pr_span. intros s. apply (pr_issue _ R); auto. Qed.
Lemma pr_expected_failure A (R : A -> A -> Prop) m : pr R (expected_failure m) (expected_failure m).
Proof. unfold expected_failure. apply pr_expected_error, pr_fail. Qed.
Lemma pr_expected_failure_bind A B (R : B -> B -> Prop) m (k k' : A -> prog B) : pr R (bind (expected_failure m) k) (bind (expected_failure m) k').
Proof. apply (pr_bind _ _ (fun _ _ => False)); [apply pr_expected_failure|contradiction]. Qed.
Lemma pr_err_frags B (R : B -> B -> Prop) m s s' fr fr' k k' : s' = lf s -> fr' = map frag_at fr -> pr R (k tt) (k' tt) -> pr R (bind (err_frags m s fr) k) (bind (err_frags m s' fr') k').
Proof. apply pr_issue. Qed.
Lemma pr_err B (R : B -> B -> Prop) m s s' k k' : s' = lf s -> pr R (k tt) (k' tt) -> pr R (bind (err m s) k) (bind (err m s') k').
Proof. intros H. now apply pr_issue. Qed.
Lemma pr_warn B (R : B -> B -> Prop) m s s' k k' : s' = lf s -> pr R (k tt) (k' tt) -> pr R (bind (warn m s) k) (bind (warn m s') k').
Proof. intros H. now apply pr_issue. Qed.
Lemma pr_err_here A (R : A -> A -> Prop) m : pr R (err_here m) (err_here m).
Proof. unfold err_here. apply pr_span. intros s. now apply pr_err, pr_fail. Qed.
Lemma pr_err_here_bind A B (R : B -> B -> Prop) m (k k' : A -> prog B) : pr R (bind (err_here m) k) (bind (err_here m) k').
Proof. apply (pr_bind _ _ (fun _ _ => False)); [apply pr_err_here|contradiction]. Qed.
Lemma pr_consume B (R : B -> B -> Prop) k k' : (forall s, pr R (k s) (k' (lf s))) -> pr R (bind consume k) (bind consume k').
Proof. intros H. unfold consume. apply pr_assoc, pr_span. intros s. apply pr_assoc, pr_next. apply H. Qed.
Lemma pr_recovered_end B (R : B -> B -> Prop) m e k k' : respects e -> pr R (k tt) (k' tt) -> pr R (bind (recovered_end m e) k) (bind (recovered_end m e) k').
Proof. intros He H. unfold recovered_end. apply pr_assoc, pr_token. intros t t' Ht. rewrite (He _ _ Ht). destruct (e t); [exact H|]. apply pr_assoc, pr_expected_error, pr_recover_; assumption. Qed.
Lemma pr_recovered A {I : Respan A} (d d' : A) m e p p' : respects e -> pr rm p p' -> d' = respan lf d -> pr rm (recovered d m e p) (recovered d' m e p').
Proof.
  intros He H ->. unfold recovered. apply (pr_bind _ _ rm).
  - eapply pr_try; [exact H|intros a a' ->; now apply pr_ret|]. apply pr_recover_; [exact He|]. now apply pr_ret.
  - intros a a' ->. apply pr_recovered_end; [exact He|]. now apply pr_ret.
Qed.
Lemma pr_recovered_errs A {I : Respan A} (d d' : A) m e p p' : respects e -> pr rm p p' -> errs p -> errs p' -> (lstrict = true -> d' = respan lf d) -> pr rm (recovered d m e p) (recovered d' m e p').
Proof.
  intros He H F F' D. unfold recovered. apply (pr_bind _ _ rm).
  - eapply pr_try_errs; [exact H|exact F|exact F'|intros a a' ->; now apply pr_ret|]. intros S. rewrite (D S). apply pr_recover_; [exact He|]. now apply pr_ret.
  - intros a a' ->. apply pr_recovered_end; [exact He|]. now apply pr_ret.
Qed.
Lemma pr_recovered_acc A {I : Respan A} m e (p p' : prog (A * bool)) : respects e -> pr rm p p' -> pr rm (recovered_acc m e p) (recovered_acc m e p').
Proof.
  intros He H. unfold recovered_acc. apply (pr_bind _ _ rm); [exact H|]. intros [a ok] a' ->. cbn [respan Rs_prod Rs_bool].
  apply (pr_bind _ _ eq).
  - destruct ok; [now apply pr_ret|]. unfold recover. apply pr_recover; [exact He|]. intros [|]; [now apply pr_ret|apply pr_fail].
  - intros ? ? _. apply pr_recovered_end; [exact He|]. now apply pr_ret.
Qed.
End Logic.
Arguments rm {L A I} / a a'.
