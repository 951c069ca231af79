(** C21: the lint for keywords that are not in capitals.  C52: the lint for names without quotes. *)
From Verif Require Export PropsDialect.
Local Open Scope string_scope.
Local Open Scope list_scope.

(** ** Specification *)
(** The warning about keyword [v]. *)
Definition caps_warning (v : text) : text := txt "keyword " ++ v ++ txt " should be in ALL CAPS " ++ upper v.
(** The message about the name [v] written without quotes. *)
Definition unquoted_warning (v : text) : text := txt "identifiers should be quoted as `" ++ v ++ txt "`".
Definition capital (c : N) : Prop := (65 <= c <= 90)%N.
Definition small (c : N) : Prop := (97 <= c <= 122)%N.
(** The keyword [v] stands at [s] in [src]. *)
Definition keyword_in (src : text) (v : text) (s : span) : Prop := at_span src s v /\ exists k, kw_of_text (upper v) = KW k.

Lemma capitals_iff v : forallb is_ascii_uppercase v = true <-> Forall capital v.
Proof.
  rewrite forallb_forall, Forall_forall. split; intros H x Hx; specialize (H x Hx); unfold is_ascii_uppercase, capital, between in *; [apply andb_true_iff in H as [H1 H2]|apply andb_true_iff; split];
    try apply N.leb_le; rewrite ?N.leb_le in *; lia.
Qed.
Lemma capitals_not v : forallb is_ascii_uppercase v = false <-> Exists (fun c => ~ capital c) v.
Proof.
  split.
  - induction v as [|c v IH]; [discriminate|]. cbn [forallb]. intros H. apply andb_false_iff in H as [H|H]; [left|right; auto].
    intros X. assert (Y : forallb is_ascii_uppercase [c] = true) by (apply capitals_iff; now constructor). cbn in Y. rewrite H in Y. discriminate.
  - intros H. rewrite <- not_true_iff_false, capitals_iff. intros F. apply Exists_exists in H as (c & H1 & H2). rewrite Forall_forall in F. auto.
Qed.

Section Both3.
Context {A : Type} {I : Atoms A}.
Variables (sr : text) (o : options) (a : A) (out : list issue) (log : list (N * span)).
Hypothesis H : @safe (env3 sr o out) A I a out log.
Lemma both_caps i w : In i out -> i_message i = txt "keyword " ++ w ->
  o_warn_caps o = true /\ i_level i = Warning /\
  exists v, i_message i = caps_warning v /\ keyword_in sr v (i_span i) /\ Exists (fun c => ~ capital c) v.
Proof.
  intros Hi E. pose proof (f_issues _ _ _ H) as F. rewrite Forall_forall in F. apply F in Hi as [Hi|[(v & _ & E2 & _)|[(v & E1 & E2 & E3 & E4 & E5)|(v & E2 & _)]]].
  - unfold plain_in in Hi. rewrite E in Hi. cbn in Hi. rewrite ?andb_false_r in Hi. discriminate.
  - rewrite E in E2. discriminate E2.
  - split; [exact E5|]. split; [exact E1|]. exists v. split; [exact E2|]. split; [exact E3|now apply capitals_not].
  - rewrite E in E2. discriminate E2.
Qed.
Lemma both_unquoted v s : In (v, s) (idents_in a) -> at_span sr s v -> v <> [] -> ~ reserved_word_text v -> o_warn_unquoted o = true ->
  exists i, In i out /\ i_message i = unquoted_warning v /\ i_span i = s.
Proof.
  intros Hx At Ne R O. unfold idents_in in Hx. apply in_flat_map in Hx as (x & X1 & X2).
  pose proof (in_atoms _ _ _ _ _ _ H x X1) as K. destruct x; cbn in X2; try easy. destruct X2 as [X2|[]]. injection X2 as -> ->.
  destruct K as (w & [O1 _] & _ & _ & O2). change SafeLogic.src with sr in O1. assert (W : w = v) by (apply slice_iff_at in At, O1; congruence).
  apply not_true_iff_false in R. exact (O2 W Ne R O).
Qed.
Lemma both_only_unquoted i w : In i out -> i_message i = txt "identifiers should be quoted" ++ w ->
  o_warn_unquoted o = true /\ exists v, i_message i = unquoted_warning v /\ at_span sr (i_span i) v /\ ~ reserved_word_text v.
Proof.
  intros Hi E. pose proof (f_issues _ _ _ H) as F. rewrite Forall_forall in F. apply F in Hi as [Hi|[(v & _ & E2 & _)|[(v & _ & E2 & _)|(v & E2 & E3 & E4 & E5)]]].
  - unfold plain_in in Hi. rewrite E in Hi. cbn in Hi. rewrite ?andb_false_r in Hi. discriminate.
  - rewrite E in E2. discriminate E2.
  - rewrite E in E2. discriminate E2.
  - split; [exact E5|]. exists v. split; [exact E2|]. split; [exact E3|]. apply not_true_iff_false, E4.
Qed.
End Both3.

(** ** C21 *)
(** Every such warning is about a keyword that stands there and is not written in capital letters only. *)
Theorem C21_statement_only : forall src issues o r out i w,
  parse_statement_api src issues o = Returns r out -> In i (new_issues issues out) -> i_message i = txt "keyword " ++ w ->
  o_warn_caps o = true /\ i_level i = Warning /\
  exists v, i_message i = caps_warning v /\ keyword_in src v (i_span i) /\ Exists (fun c => ~ capital c) v.
Proof. intros src issues o r out i w H. exact (both_caps _ _ _ _ _ (statement_facts3 _ _ _ _ _ H) i w). Qed.
Theorem C21_statements_only : forall src issues o l out i w,
  parse_statements src issues o = Returns l out -> In i (new_issues issues out) -> i_message i = txt "keyword " ++ w ->
  o_warn_caps o = true /\ i_level i = Warning /\
  exists v, i_message i = caps_warning v /\ keyword_in src v (i_span i) /\ Exists (fun c => ~ capital c) v.
Proof. intros src issues o r out i w H. exact (both_caps _ _ _ _ _ (statements_facts3 _ _ _ _ _ H) i w). Qed.
(** So a keyword in capital letters is never warned about ([_partial]: without underscores and digits). *)
Theorem C21_statement_capitals_partial : forall src issues o r out i v w,
  parse_statement_api src issues o = Returns r out -> In i (new_issues issues out) -> at_span src (i_span i) v -> Forall capital v ->
  i_message i <> caps_warning w.
Proof.
  intros src issues o r out i v w H Hi At Hc E. destruct (C21_statement_only _ _ _ _ _ i _ H Hi E) as (_ & _ & v' & _ & [At' _] & X).
  assert (v' = v) by (apply slice_iff_at in At, At'; congruence). subst. apply capitals_not in X. apply capitals_iff in Hc. congruence.
Qed.
Theorem C21_statements_capitals_partial : forall src issues o l out i v w,
  parse_statements src issues o = Returns l out -> In i (new_issues issues out) -> at_span src (i_span i) v -> Forall capital v ->
  i_message i <> caps_warning w.
Proof.
  intros src issues o r out i v w H Hi At Hc E. destruct (C21_statements_only _ _ _ _ _ i _ H Hi E) as (_ & _ & v' & _ & [At' _] & X).
  assert (v' = v) by (apply slice_iff_at in At, At'; congruence). subst. apply capitals_not in X. apply capitals_iff in Hc. congruence.
Qed.
(** Conversely, wherever a keyword is read as a particular keyword ([consume_keyword],
    [skip_keyword]), there is exactly one warning if the lint is on and the keyword is not in
    capital letters, and otherwise none. *)
Definition reads_keyword {A} (p : prog A) (v : text) (st : pst) : Prop :=
  match run p st with
  | ROk _ st' =>
      (o_warn_caps (s_opts st) = true -> Exists (fun c => ~ capital c) v ->
       exists i, s_issues st' = s_issues st ++ [i] /\ i_level i = Warning /\ i_span i = s_span st /\ i_message i = caps_warning v) /\
      (o_warn_caps (s_opts st) = false \/ Forall capital v -> s_issues st' = s_issues st)
  | RErr _ | RFuel => False
  | RPanic _ => True
  end.
Theorem C21_consume_keyword : forall st k v, s_tok st = TIdent v (KW k) -> reads_keyword (consume_keyword k) v st.
Proof.
  intros st k v T. unfold reads_keyword, consume_keyword. rewrite run_bind, run_token, T. assert (R : kw_eqb (KW k) (KW k) = true) by (cbn; apply String.eqb_refl). rewrite R. clear R.
  rewrite run_bind, run_span, run_bind, run_perf. cbn [exec].
  assert (C : forall st1, match run consume st1 with ROk _ st' => s_issues st' = s_issues st1 | RPanic _ => True | _ => False end).
  { intros st1. rewrite run_consume. unfold p_next. destruct (s_peek st1) as [[t2 s2]|]; [reflexivity|]. destruct (next_token (s_lex st1)) as [[t2 s2] l2|]; [reflexivity|exact I]. }
  destruct (forallb is_ascii_uppercase v) eqn:F; cbn [negb andb].
  - specialize (C st). destruct (run consume st); auto. rewrite C. split; [|auto]. intros _ X. apply capitals_not in X. congruence.
  - destruct (o_warn_caps (s_opts st)) eqn:O.
    + unfold p_issue. destruct (slice _ _ _) as [w|]; [|exact I]. cbn [build_frags].
      match goal with |- context [run consume ?s] => specialize (C s); destruct (run consume s); auto end. split.
      * intros _ _. eexists. split; [exact C|]. now repeat split.
      * intros [X|X]; [discriminate|]. apply capitals_iff in X. congruence.
    + specialize (C st). destruct (run consume st); auto. split; [discriminate|auto].
Qed.
Theorem C21_skip_keyword : forall st k v, s_tok st = TIdent v (KW k) -> reads_keyword (skip_keyword k) v st.
Proof.
  intros st k v T. pose proof (C21_consume_keyword st k v T) as H. unfold reads_keyword in *. unfold skip_keyword. rewrite run_bind, run_token, T. cbn [is_kw].
  assert (R : kw_eqb (KW k) (KW k) = true) by (cbn; apply String.eqb_refl). rewrite R, run_try. destruct (run (consume_keyword k) st); try contradiction; auto.
Qed.
(** The claim as such is false in both directions: an underscore counts as not capital, and
    operators that are words are not read by [consume_keyword]. *)
Theorem C21_refuted :
  (exists src o v, o_warn_caps o = true /\ Forall (fun c => ~ small c) v /\
     match parse_statement_api src [] o with Returns (Some _) [i] => i_message i = caps_warning v /\ keyword_in src v (i_span i) | _ => False end) /\
  (exists src o v s, o_warn_caps o = true /\ Forall small v /\ keyword_in src v s /\
     match parse_statement_api src [] o with Returns (Some (SSelect x)) [] => spn x = SSome (0, blen src) /\ idents_in x = [] | _ => False end).
Proof.
  set (o := mkOptions MariaDB ArgNone false true false). split.
  - exists (txt "CREATE TABLE t (a INT AUTO_INCREMENT)"), o, (txt "AUTO_INCREMENT"). split; [reflexivity|]. split; [match goal with |- Forall _ ?l => let l' := eval vm_compute in l in change l with l' end; repeat (apply Forall_cons; [unfold small; lia|]); apply Forall_nil|].
    assert (X : match parse_statement_api (txt "CREATE TABLE t (a INT AUTO_INCREMENT)") [] o with Returns (Some _) [i] => i_message i = caps_warning (txt "AUTO_INCREMENT") /\ i_span i = (22, 36) | _ => False end)
      by (vm_compute; auto).
    destruct (parse_statement_api _ _ _) as [[|] [|i [|]]| |]; try contradiction. destruct X as [X1 X2]. split; [exact X1|]. rewrite X2. split; [apply slice_iff_at; reflexivity|]. exists "AUTO_INCREMENT". reflexivity.
  - exists (txt "SELECT 1 or 2"), o, (txt "or"), (9, 11). split; [reflexivity|]. split; [match goal with |- Forall _ ?l => let l' := eval vm_compute in l in change l with l' end; repeat (apply Forall_cons; [unfold small; lia|]); apply Forall_nil|]. split; [split; [apply slice_iff_at; reflexivity|exists "OR"; reflexivity]|].
    vm_compute. auto.
Qed.
Example C21_applies :
  match parse_statement_api (txt "SELECT 1 from t LIMIT 1") [] (mkOptions MariaDB ArgNone false true false) with
  | Returns (Some _) [i] => i_message i = caps_warning (txt "from") /\ i_span i = (9, 13) | _ => False end.
Proof. vm_compute. auto. Qed.

(** ** C52 *)
(** With the option on, every name in the result that stands in the source without quotes and is
    no reserved word has the message, at its place. *)
Theorem C52_statement_unquoted : forall src issues o r out v s,
  parse_statement_api src issues o = Returns r out -> o_warn_unquoted o = true ->
  In (v, s) (idents_in r) -> at_span src s v -> v <> [] -> ~ reserved_word_text v ->
  exists i, In i (new_issues issues out) /\ i_message i = unquoted_warning v /\ i_span i = s.
Proof. intros src issues o r out v s H O Hx At Ne R. exact (both_unquoted _ _ _ _ _ (statement_facts3 _ _ _ _ _ H) v s Hx At Ne R O). Qed.
Theorem C52_statements_unquoted : forall src issues o l out v s,
  parse_statements src issues o = Returns l out -> o_warn_unquoted o = true ->
  In (v, s) (idents_in l) -> at_span src s v -> v <> [] -> ~ reserved_word_text v ->
  exists i, In i (new_issues issues out) /\ i_message i = unquoted_warning v /\ i_span i = s.
Proof. intros src issues o r out v s H O Hx At Ne R. exact (both_unquoted _ _ _ _ _ (statements_facts3 _ _ _ _ _ H) v s Hx At Ne R O). Qed.
(** Nothing else has it: with the option off it never appears, and otherwise it is about a word that
    stands there as such, without quotes, and is not reserved. *)
Theorem C52_statement_only : forall src issues o r out i w,
  parse_statement_api src issues o = Returns r out -> In i (new_issues issues out) -> i_message i = txt "identifiers should be quoted" ++ w ->
  o_warn_unquoted o = true /\ exists v, i_message i = unquoted_warning v /\ at_span src (i_span i) v /\ ~ reserved_word_text v.
Proof. intros src issues o r out i w H. exact (both_only_unquoted _ _ _ _ _ (statement_facts3 _ _ _ _ _ H) i w). Qed.
Theorem C52_statements_only : forall src issues o l out i w,
  parse_statements src issues o = Returns l out -> In i (new_issues issues out) -> i_message i = txt "identifiers should be quoted" ++ w ->
  o_warn_unquoted o = true /\ exists v, i_message i = unquoted_warning v /\ at_span src (i_span i) v /\ ~ reserved_word_text v.
Proof. intros src issues o r out i w H. exact (both_only_unquoted _ _ _ _ _ (statements_facts3 _ _ _ _ _ H) i w). Qed.
(** With the option off, and for names in quotes, the result and the other issues are as before: see C20. *)
Example C52_applies :
  match parse_statement_api (txt "SELECT a, `b` FROM c") [] (mkOptions MariaDB ArgNone true false false) with
  | Returns (Some r) [i; j] => i_message i = unquoted_warning (txt "a") /\ i_span i = (7, 8) /\ i_level i = Warning /\
      i_message j = unquoted_warning (txt "c") /\ i_span j = (19, 20) /\ idents_in r = [(txt "a", (7, 8)); (txt "b", (10, 13)); (txt "c", (19, 20))] | _ => False end.
Proof. vm_compute. repeat split. Qed.
