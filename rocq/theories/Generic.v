(** Facts that hold of every parser program, whatever it does, because they hold of every
    primitive effect: proved once by induction over [prog]. *)
From Verif Require Export PropsLexer Parser.
Local Open Scope string_scope.
Local Open Scope list_scope.

(** The text quoted by an issue and by its fragments is the source text at the range. *)
Definition quotes_source (src : text) (i : issue) : Prop :=
  at_span src (i_span i) (i_segment i) /\
  Forall (fun f => at_span src (f_span f) (f_segment f)) (i_fragments i).

Lemma build_frags_ok src fr frs : build_frags src fr = Some frs ->
  Forall (fun f => at_span src (f_span f) (f_segment f)) frs /\ map (fun f => (f_message f, f_span f)) frs = fr.
Proof.
  revert frs. induction fr as [|[m s] fr IH]; cbn; intros frs H.
  - injection H as <-. repeat constructor.
  - destruct (slice src _ _) as [seg|] eqn:E; [|discriminate].
    destruct (build_frags src fr) as [r|] eqn:E2; [|discriminate]. injection H as <-.
    destruct (IH _ eq_refl) as [I1 I2]. split.
    + constructor; [|exact I1]. now apply slice_iff_at.
    + cbn. now rewrite I2.
Qed.

(** [st'] has grown from [st]: only new issues, all quoting the source; the source, the
    issues' source and the options are the same. *)
Definition grown (st st' : pst) : Prop :=
  s_isrc st' = s_isrc st /\ s_opts st' = s_opts st /\ l_src (s_lex st') = l_src (s_lex st) /\
  exists new, s_issues st' = s_issues st ++ new /\ Forall (quotes_source (s_isrc st)) new.

Lemma grown_refl st : grown st st.
Proof. repeat split; auto. exists []. now rewrite app_nil_r. Qed.
Lemma grown_trans a b c : grown a b -> grown b c -> grown a c.
Proof.
  intros (E1 & E2 & E3 & n1 & I1 & F1) (E4 & E5 & E6 & n2 & I2 & F2). repeat split; try congruence.
  exists (n1 ++ n2). rewrite I2, I1, app_assoc. split; [easy|]. apply Forall_app. split; [easy|]. now rewrite <- E1.
Qed.

Lemma bump_src l : l_src (bump l) = l_src l.
Proof. unfold bump. destruct (l_rest l); easy. Qed.
Lemma bump_while_src p l : l_src (bump_while p l) = l_src l.
Proof. unfold bump_while. destruct (take_while p _ _); easy. Qed.
Lemma match_letters_src w : forall l, l_src (snd (match_letters w l)) = l_src l.
Proof.
  induction w as [|x w IH]; intros l; cbn [match_letters]; [easy|].
  destruct (peekc l); [|easy]. destruct (_ =? _)%N; [|easy]. now rewrite IH, bump_src.
Qed.
Ltac lsrc := repeat match goal with
  | H : LOk _ _ = LOk _ _ |- _ => injection H as <- <-
  | H : (if ?b then _ else _) = LOk _ _ |- _ => destruct b
  | H : match ?e with LOk _ _ => _ | LPanic _ => _ end = LOk _ _ |- _ => destruct e eqn:?
  | H : match ?e with Some _ => _ | None => _ end = LOk _ _ |- _ => destruct e eqn:?
  | H : (let (_, _) := ?e in _) = LOk _ _ |- _ => destruct e eqn:?
  | H : LPanic _ = LOk _ _ |- _ => discriminate
  end.
Lemma with_s_src l a b f t l' : with_s l a b f = LOk t l' -> l' = l.
Proof. unfold with_s. destruct (lex_s l a b); [|easy]. intros E. now injection E. Qed.
Lemma lex_string_src q f st l t l' : lex_string q f st l = LOk t l' -> l_src l' = l_src l.
Proof.
  unfold lex_string. destruct (scan_string _ _ _) as [[i|] [r p]]; intros E; [|now injection E as <- <-].
  apply with_s_src in E. now subst.
Qed.
Lemma lex_char_src' st c l t l' : lex_char st c l = LOk t l' -> l_src l' = l_src l.
Proof.
  intros H. unfold lex_char, tok1, tok2, lex_number, simple_literal in H. cbv zeta in H. lsrc; try easy;
  repeat match goal with
  | H : with_s _ _ _ _ = LOk _ _ |- _ => apply with_s_src in H
  | H : lex_string _ _ _ _ = LOk _ _ |- _ => apply lex_string_src in H
  | H : match_letters ?w ?l = (_, ?l') |- _ =>
     assert (l_src l' = l_src l) by (rewrite <- (match_letters_src w l), H; reflexivity); clear H
  end; subst; rewrite ?bump_while_src, ?bump_src in *; cbn [l_src] in *; try easy.
  all: repeat match goal with H : (let (_, _) := ?e in _) = LOk _ _ |- _ => destruct e eqn:? end; lsrc;
    rewrite ?bump_while_src, ?bump_src in *; easy.
Qed.
Lemma next_token_src l x l' : next_token l = LOk x l' -> l_src l' = l_src l.
Proof.
  unfold next_token. assert (G : forall n l x l', next_token_f n l = Some (LOk x l') -> l_src l' = l_src l).
  { clear. induction n as [|n IH]; intros l x l'; cbn [next_token_f]; [discriminate|].
    destruct (l_rest l) as [|c r]; [intros E; injection E as _ <-; easy|].
    cbv zeta. destruct (lex_char _ _ _) as [[t|] l1|w] eqn:E; try discriminate; intros H.
    - injection H as _ <-. apply lex_char_src' in E. now rewrite E, bump_src.
    - apply IH in H. apply lex_char_src' in E. now rewrite H, E, bump_src. }
  destruct (next_token_f _ l) as [r|] eqn:E; [|discriminate]. intros ->. eauto.
Qed.
Lemma read_from_stdin_src l x l' : read_from_stdin l = LOk x l' -> l_src l' = l_src l.
Proof.
  unfold read_from_stdin. cbv zeta. intros H.
  destruct (peekc _); [destruct (scan_stdin _ _) as [i [r p]]|];
    (destruct (lex_s _ _ _); [|discriminate]); injection H as _ <-; cbn; now rewrite ?bump_while_src.
Qed.

Ltac gr := repeat split; cbn; auto; exists []; now rewrite app_nil_r.
Lemma p_next_grown st st' : p_next st = XOk tt st' -> grown st st'.
Proof.
  unfold p_next. destruct (s_peek st) as [[t s]|].
  - intros H. injection H as <-. gr.
  - destruct (next_token (s_lex st)) as [[t s] l|] eqn:E; [|discriminate]. intros H. injection H as <-.
    apply next_token_src in E. gr.
Qed.
Lemma p_issue_grown l m s fr st st' : p_issue l m s fr st = XOk tt st' -> grown st st'.
Proof.
  unfold p_issue. destruct (slice _ _ _) as [seg|] eqn:E; [|discriminate].
  destruct (build_frags _ _) as [frs|] eqn:E2; [|discriminate]. intros H. injection H as <-.
  repeat split; auto. exists [mkIssue l m s seg frs]. split; [easy|]. constructor; [|easy].
  split; cbn; [now apply slice_iff_at|]. now apply build_frags_ok in E2.
Qed.
Lemma recover_grown n f : forall b st x st', recover_f n f b st = XOk x st' -> grown st st'.
Proof.
  induction n as [|n IH]; intros b st x st'; cbn [recover_f]; [discriminate|]. cbv zeta.
  assert (S : forall b', match p_next st with
        | XOk _ st' => recover_f n f b' st' | XPanic w => XPanic w | XFuel => XFuel end = XOk x st' -> grown st st').
  { intros b' H. destruct (p_next st) as [[] st1| |] eqn:E; try discriminate.
    eapply grown_trans; [apply p_next_grown; eauto|eauto]. }
  destruct (_ && _); [intros H; injection H as _ <-; apply grown_refl|].
  destruct (tok_eqb _ _); [intros H; injection H as _ <-; apply grown_refl|].
  destruct (tok_eqb _ _); [intros H; injection H as _ <-; apply grown_refl|].
  destruct (s_tok st); apply S.
Qed.
Lemma exec_grown X (o : op X) st x st' : exec o st = XOk x st' -> grown st st'.
Proof.
  destruct o; cbn [exec]; try (intros H; injection H as _ <-; first [apply grown_refl|gr]).
  - destruct x. apply p_next_grown.
  - unfold p_peek. destruct (s_peek st) as [[t s]|]; [intros H; injection H as _ <-; apply grown_refl|].
    destruct (next_token (s_lex st)) as [[t s] l|] eqn:E; [|discriminate]. intros H. injection H as _ <-.
    apply next_token_src in E. gr.
  - destruct x. apply p_issue_grown.
  - destruct x. destruct (o_warn_unquoted _); [apply p_issue_grown|]. intros H; injection H as <-; apply grown_refl.
  - destruct x. destruct (_ && _); [apply p_issue_grown|]. intros H; injection H as <-; apply grown_refl.
  - apply recover_grown.
  - unfold p_stdin. destruct (read_from_stdin _) as [d l|] eqn:E; [|discriminate].
    destruct (p_next _) as [[] st1| |] eqn:E2; try discriminate. intros H; injection H as _ <-.
    apply p_next_grown in E2. eapply grown_trans; [|exact E2]. apply read_from_stdin_src in E. gr.
Qed.

(** Every run of every program only appends issues, and the new ones quote the source. *)
Theorem run_grown A (p : prog A) : forall st,
  match run p st with ROk _ st' | RErr st' => grown st st' | _ => True end.
Proof.
  induction p as [A a|A|A w|A|A X o k IH|A X p IHp k IH]; intros st; cbn [run]; try apply grown_refl; try exact I.
  - destruct (exec o st) as [x st1| |] eqn:E; try exact I. apply exec_grown in E.
    specialize (IH x st1). destruct (run (k x) st1); auto; eapply grown_trans; eauto.
  - specialize (IHp st). destruct (run p st) as [x st1|st1| |]; try exact I.
    + specialize (IH (Some x) st1). destruct (run (k (Some x)) st1); auto; eapply grown_trans; eauto.
    + specialize (IH None st1). destruct (run (k None) st1); auto; eapply grown_trans; eauto.
Qed.

(** ** What was in [Issues] before does not matter *)
Definition add_issues (i : list issue) (st : pst) : pst := set_issues st (i ++ s_issues st).
Definition map_x {X} (f : pst -> pst) (r : xres X) : xres X :=
  match r with XOk x st => XOk x (f st) | XPanic w => XPanic w | XFuel => XFuel end.
Definition map_r {A} (f : pst -> pst) (r : res A) : res A :=
  match r with ROk a st => ROk a (f st) | RErr st => RErr (f st) | RPanic w => RPanic w | RFuel => RFuel end.

Lemma p_next_add i st : p_next (add_issues i st) = map_x (add_issues i) (p_next st).
Proof.
  unfold p_next. cbn. destruct (s_peek st) as [[t s]|]; [easy|]. destruct (next_token _) as [[t s] l|]; easy.
Qed.
Lemma p_issue_add i l m s fr st : p_issue l m s fr (add_issues i st) = map_x (add_issues i) (p_issue l m s fr st).
Proof.
  unfold p_issue. cbn. destruct (slice _ _ _); [|easy]. destruct (build_frags _ _); [|easy].
  cbn. unfold add_issues, set_issues. cbn. now rewrite app_assoc.
Qed.
Lemma recover_add n f i : forall b st, recover_f n f b (add_issues i st) = map_x (add_issues i) (recover_f n f b st).
Proof.
  induction n as [|n IH]; intros b st; cbn [recover_f]; [easy|]. cbv zeta.
  change (s_tok (add_issues i st)) with (s_tok st). change (s_delim (add_issues i st)) with (s_delim st).
  assert (S : forall b', match p_next (add_issues i st) with
        | XOk _ st' => recover_f n f b' st' | XPanic w => XPanic w | XFuel => XFuel end =
      map_x (add_issues i) match p_next st with
        | XOk _ st' => recover_f n f b' st' | XPanic w => XPanic w | XFuel => XFuel end).
  { intros b'. rewrite p_next_add. destruct (p_next st); cbn; auto. }
  destruct (_ && _); [easy|]. destruct (tok_eqb _ _); [easy|]. destruct (tok_eqb _ _); [easy|].
  destruct (s_tok st); apply S.
Qed.
Lemma exec_add X (o : op X) i st : exec o (add_issues i st) = map_x (add_issues i) (exec o st).
Proof.
  destruct o; cbn [exec]; try reflexivity.
  - apply p_next_add.
  - unfold p_peek. cbn. destruct (s_peek st) as [[t s]|]; [easy|]. destruct (next_token _) as [[t s] l|]; easy.
  - apply p_issue_add.
  - cbn. destruct (o_warn_unquoted _); [apply p_issue_add|easy].
  - change (s_opts (add_issues i st)) with (s_opts st). destruct (_ && _); [apply p_issue_add|easy].
  - change (rec_fuel (add_issues i st)) with (rec_fuel st). apply recover_add.
  - unfold p_stdin. cbn. destruct (read_from_stdin _) as [d l|]; [|easy].
    change (mkPst l (s_tok st) (s_span st) (s_peek st) (s_isrc st) (i ++ s_issues st) (s_arg st) (s_delim st) (s_opts st) (s_permit st))
      with (add_issues i (mkPst l (s_tok st) (s_span st) (s_peek st) (s_isrc st) (s_issues st) (s_arg st) (s_delim st) (s_opts st) (s_permit st))).
    rewrite p_next_add. now destruct (p_next _).
Qed.
Theorem run_add A (p : prog A) i : forall st, run p (add_issues i st) = map_r (add_issues i) (run p st).
Proof.
  induction p as [A a|A|A w|A|A X o k IH|A X p IHp k IH]; intros st; cbn [run]; try reflexivity.
  - rewrite exec_add. destruct (exec o st); cbn; auto.
  - rewrite IHp. destruct (run p st); cbn; auto.
Qed.

(** ** The lint options only add issues *)

(** An issue that only a lint option can produce. *)
Definition lint_issue (o : options) (i : issue) : Prop :=
  i_fragments i = [] /\
  ((o_warn_unquoted o = true /\ exists v, i_message i = msg_unquoted v) \/
   (o_warn_caps o = true /\ i_level i = Warning /\ exists v, i_message i = msg_caps v)).
(** [on] is [off] with lint issues inserted. *)
Inductive lint_extra (o : options) : list issue -> list issue -> Prop :=
| le_nil : lint_extra o [] []
| le_same off on i : lint_extra o off on -> lint_extra o (off ++ [i]) (on ++ [i])
| le_lint off on i : lint_extra o off on -> lint_issue o i -> lint_extra o off (on ++ [i]).
Lemma lint_extra_refl o l : lint_extra o l l.
Proof. induction l as [|i l IH] using rev_ind; now constructor. Qed.
Lemma lint_extra_app o a b l : lint_extra o a b -> lint_extra o (a ++ l) (b ++ l).
Proof.
  intros H. induction l as [|i l IH] using rev_ind; [now rewrite !app_nil_r|].
  rewrite !app_assoc. now constructor.
Qed.

(** The same options without the lints. *)
Definition no_lints (o : options) : options :=
  mkOptions (o_dialect o) (o_arguments o) false false (o_list_hack o).
(** [st0] is [st] without lints. *)
Definition lint_sim (o : options) (st0 st : pst) : Prop :=
  s_opts st = o /\
  exists i, st0 = mkPst (s_lex st) (s_tok st) (s_span st) (s_peek st) (s_isrc st) i (s_arg st)
                        (s_delim st) (no_lints o) (s_permit st) /\ lint_extra o i (s_issues st).
Definition xsim {X} (o : options) (r0 r : xres X) : Prop :=
  r = XPanic PBadSlice \/
  match r0, r with
  | XOk x st0, XOk x' st => x = x' /\ lint_sim o st0 st
  | XPanic w, XPanic w' => w = w'
  | XFuel, XFuel => True
  | _, _ => False
  end.
Definition rlsim {X} (o : options) (r0 r : res X) : Prop :=
  r = RPanic PBadSlice \/
  match r0, r with
  | ROk x st0, ROk x' st => x = x' /\ lint_sim o st0 st
  | RErr st0, RErr st => lint_sim o st0 st
  | RPanic w, RPanic w' => w = w'
  | RFuel, RFuel => True
  | _, _ => False
  end.

Ltac lsim1 := split; [reflexivity|]; split; [reflexivity|]; eexists; split; [reflexivity|assumption].
Lemma p_next_lint o st0 st : lint_sim o st0 st -> xsim o (p_next st0) (p_next st).
Proof.
  intros (Eo & i & -> & L). right. unfold p_next. cbn.
  destruct (s_peek st) as [[t s]|]; [split; [easy|]; split; [easy|]; now exists i|].
  destruct (next_token _) as [[t s] l|]; [|easy]. split; [easy|]. split; [easy|]. now exists i.
Qed.
Lemma p_issue_lint o l m s fr st0 st : lint_sim o st0 st -> xsim o (p_issue l m s fr st0) (p_issue l m s fr st).
Proof.
  intros (Eo & i & -> & L). right. unfold p_issue. cbn.
  destruct (slice _ _ _); [|easy]. destruct (build_frags _ _); [|easy]. split; [easy|]. split; [easy|].
  eexists. split; [reflexivity|]. now constructor.
Qed.
Lemma p_lint_lint o l m s st0 st : lint_sim o st0 st ->
  (forall seg, lint_issue o (mkIssue l m s seg [])) -> xsim o (XOk tt st0) (p_issue l m s [] st).
Proof.
  intros (Eo & i & -> & L) Li. unfold p_issue. cbn. destruct (slice _ _ _) as [seg|] eqn:E; [right|now left].
  split; [easy|]. split; [easy|]. exists i. split; [easy|]. now constructor.
Qed.
Lemma recover_lint n f o : forall b st0 st, lint_sim o st0 st -> xsim o (recover_f n f b st0) (recover_f n f b st).
Proof.
  induction n as [|n IH]; intros b st0 st L; cbn [recover_f]; [now right|]. cbv zeta.
  assert (S : forall b', xsim o match p_next st0 with
        | XOk _ st' => recover_f n f b' st' | XPanic w => XPanic w | XFuel => XFuel end
      match p_next st with
        | XOk _ st' => recover_f n f b' st' | XPanic w => XPanic w | XFuel => XFuel end).
  { intros b'. destruct (p_next_lint _ _ _ L) as [E|E]; [rewrite E; now left|].
    destruct (p_next st0), (p_next st); try easy; [|right; cbn; congruence|now right].
    apply IH. apply E. }
  assert (Et : s_tok st0 = s_tok st /\ s_delim st0 = s_delim st) by (destruct L as (_ & i & -> & _); easy).
  destruct Et as [-> ->].
  destruct (_ && _); [right; split; [easy|exact L]|].
  destruct (tok_eqb _ _); [right; split; [easy|exact L]|]. destruct (tok_eqb _ _); [right; split; [easy|exact L]|].
  destruct (s_tok st); apply S.
Qed.
Lemma exec_lint X (op : op X) o st0 st : lint_sim o st0 st -> xsim o (exec op st0) (exec op st).
Proof.
  intros L. pose proof L as (Eo & i & E0 & Li).
  destruct op; cbn [exec];
    try (right; subst st0; cbn; rewrite ?Eo; split; [easy|]; split; [easy|]; eexists; split; [reflexivity|exact Li]).
  - now apply p_next_lint.
  - right. subst st0. unfold p_peek. cbn. destruct (s_peek st) as [[t s]|] eqn:Ep.
    + split; [easy|]. split; [easy|]. exists i. now rewrite Ep.
    + destruct (next_token _) as [[t s] l|]; [|easy]. split; [easy|]. split; [easy|]. now exists i.
  - now apply p_issue_lint.
  - replace (o_warn_unquoted (s_opts st0)) with false by (now rewrite E0). rewrite Eo.
    destruct (o_warn_unquoted o) eqn:W; [|right; split; [easy|exact L]].
    apply p_lint_lint; [exact L|]. intros seg. split; [easy|]. left. split; [exact W|]. now exists v.
  - replace (o_warn_caps (s_opts st0)) with false by (now rewrite E0). rewrite andb_false_r, Eo.
    destruct (_ && _) eqn:W; [|right; split; [easy|exact L]]. apply andb_true_iff in W as [_ W].
    apply p_lint_lint; [exact L|]. intros seg. split; [easy|]. right. split; [exact W|]. split; [easy|]. now exists v.
  - replace (rec_fuel st0) with (rec_fuel st) by (now rewrite E0). now apply recover_lint.
  - unfold p_stdin. replace (s_lex st0) with (s_lex st) by (now rewrite E0).
    destruct (read_from_stdin _) as [d l|]; [|now right].
    assert (L2 : lint_sim o
      (mkPst l (s_tok st0) (s_span st0) (s_peek st0) (s_isrc st0) (s_issues st0) (s_arg st0) (s_delim st0) (s_opts st0) (s_permit st0))
      (mkPst l (s_tok st) (s_span st) (s_peek st) (s_isrc st) (s_issues st) (s_arg st) (s_delim st) (s_opts st) (s_permit st))).
    { subst st0. split; [easy|]. now exists i. }
    destruct (p_next_lint _ _ _ L2) as [E|E]; [rewrite E; now left|].
    destruct (p_next _), (p_next _); try easy; [|right; cbn; congruence|now right]. right. split; [easy|apply E].
Qed.
Theorem run_lint A (p : prog A) o : forall st0 st, lint_sim o st0 st -> rlsim o (run p st0) (run p st).
Proof.
  induction p as [A a|A|A w|A|A X op k IH|A X p IHp k IH]; intros st0 st L; cbn [run]; try (now right).
  - destruct (exec_lint _ op _ _ _ L) as [->|E]; [now left|].
    destruct (exec op st0), (exec op st); try easy; [|right; cbn; congruence|now right]. destruct E as [-> E]. auto.
  - destruct (IHp _ _ L) as [->|E]; [now left|].
    destruct (run p st0), (run p st); try easy; [| |right; cbn; congruence|now right]; [destruct E as [-> E]|]; auto.
Qed.
